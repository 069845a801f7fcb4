From Coq Require Import List ZArith Lia Reals Lra Bool R_Ifp.
From Verif Require Import Base BaseProofs Vec Sum Cpx DftModel DftProofs StftProofs ParamModel ParamProofs BandsModel BandsProps AntoniProofs WaveletProofs.
Import ListNotations.
Local Open Scope R_scope.

(** * The Antoni octave filter bank (C53, C84)

    In the theorems: [first b] and [last b] are the first and last bins of the transition at the lower edge
    of band [b]; [separated]: every transition ends before the next one begins. *)
Section Edges.
Variables (base fs overlap : R) (third : bool) (n_fft : nat).
Let centers := octave_centers base third 0 (Z.to_nat (n_octaves fs base)).
Let bands := fst (octave_bands base third 0 (Z.to_nat (n_octaves fs base))).
Definition edge_first (b : nat) : Z := (an_k1 n_fft bands fs b - an_P n_fft centers bands fs overlap b)%Z.
Definition edge_last (b : nat) : Z := (an_k1 n_fft bands fs b + an_P n_fft centers bands fs overlap b)%Z.
Definition separated : Prop := forall b, (1 <= b)%nat -> (b + 1 < antoni_bands fs base third)%nat -> (edge_last b <= edge_first (b + 1))%Z.
Definition ordered : Prop := forall b, (1 <= b)%nat -> (b + 1 < antoni_bands fs base third)%nat -> (edge_first b <= edge_first (b + 1))%Z.
Definition band_fits (b : nat) : Prop := fits n_fft centers bands fs overlap b.
End Edges.
(** The energy responses of all bands at bin [k]. *)
Definition response_energy (A : antoni) (n_bands k : nat) : R := Rsum (map (fun b => an_G A b k * an_G A b k) (seq 0 n_bands)).

Lemma octave_pair : forall fc third start n, octave_bands fc third start n = (fst (octave_bands fc third start n), octave_centers fc third start n).
Proof. reflexivity. Qed.
Section Of.
Variables (base fs overlap : R) (slope : nat) (third : bool) (n_fft : nat).
Let nb := antoni_bands fs base third.
Let centers := octave_centers base third 0 (Z.to_nat (n_octaves fs base)).
Let bands := fst (octave_bands base third 0 (Z.to_nat (n_octaves fs base))).
Let first := edge_first base fs overlap third n_fft.
Let last := edge_last base fs overlap third n_fft.
Lemma of_inv : forall A, antoni_of base fs overlap slope third n_fft = Some A ->
  (0 < nb)%nat /\ (forall b, (1 <= b < nb)%nat -> band_fits base fs overlap third n_fft b) /\
  (forall b k, an_G A b k = row n_fft centers bands fs overlap slope (nb - 1) b k) /\
  (forall b, an_low A b = if Nat.eqb b 0 then 0%Z else first b) /\
  (forall b, an_high A b = if Nat.eqb b (nb - 1) then Z.of_nat (n_fft / 2 + 1) else last (b + 1)%nat).
Proof.
  intros A H. unfold antoni_of in H. rewrite octave_pair in H. fold centers bands in H.
  unfold antoni_response in H. replace (length centers) with nb in H by (unfold centers; rewrite centers_length; reflexivity). destruct (Nat.eqb_spec nb 0) as [E0|E0]; [discriminate|]. destruct (foldM _ _ _) as [G|] eqn:EG; [|discriminate]. cbn [bind] in H. apply Some_inj in H. subst A. cbn [an_G an_low an_high].
  destruct (loop_row n_fft centers bands fs overlap slope (nb - 1) G EG) as [F R]. split; [lia|]. split; [intros b Hb; apply F; lia|]. repeat split; auto.
Qed.
Lemma of_defined : (0 < nb)%nat -> (forall b, (1 <= b < nb)%nat -> band_fits base fs overlap third n_fft b) -> exists A, antoni_of base fs overlap slope third n_fft = Some A.
Proof.
  intros Hn F. unfold antoni_of. rewrite octave_pair. fold centers bands.
  unfold antoni_response. replace (length centers) with nb by (unfold centers; rewrite centers_length; reflexivity). destruct (Nat.eqb_spec nb 0) as [E0|E0]; [lia|]. destruct (loop_defined n_fft centers bands fs overlap slope (nb - 1) (fun _ _ => 1)) as (G & EG). { intros b Hb. apply F. lia. }
  unfold step in EG. rewrite EG. cbn [bind]. eauto.
Qed.
Lemma energy_total : forall A k, antoni_of base fs overlap slope third n_fft = Some A -> response_energy A nb k = total n_fft centers bands fs overlap slope (nb - 1) k.
Proof.
  intros A k H. destruct (of_inv A H) as (Hn & _ & HG & _). unfold response_energy, total. rewrite <- bsum_Rsum. replace (nb - 1 + 1)%nat with nb by lia. apply bsum_ext. intros b Hb. now rewrite !HG.
Qed.
End Of.

(** ** C53 *)
Theorem C53_energy : forall base fs overlap slope third n_fft A k, antoni_of base fs overlap slope third n_fft = Some A ->
  separated base fs overlap third n_fft -> response_energy A (antoni_bands fs base third) k = 1.
Proof.
  intros base fs overlap slope third n_fft A k H Hs. rewrite (energy_total base fs overlap slope third n_fft) by auto. destruct (of_inv _ _ _ _ _ _ _ H) as (Hn & F & _). apply total_one.
  - intros b Hb. apply (F b). lia. - intros b Hb. apply (Hs b); lia.
Qed.
Print Assumptions C53_energy.
(** Without that condition a bin can be counted more than once, but never less than once. *)
Theorem C53_at_least_one : forall base fs overlap slope third n_fft A k, antoni_of base fs overlap slope third n_fft = Some A -> 1 <= response_energy A (antoni_bands fs base third) k.
Proof.
  intros base fs overlap slope third n_fft A k H. rewrite (energy_total base fs overlap slope third n_fft) by auto. destruct (of_inv _ _ _ _ _ _ _ H) as (Hn & F & _). apply total_ge. intros b Hb. apply (F b). lia.
Qed.
Print Assumptions C53_at_least_one.

(** *** Where the edges are, for octave bands *)
Definition K1 (u : R) : Z := rint (u * sqrt 2 / 2).
Definition PP (overlap u : R) : Z := rint (overlap * IZR (rint (u * sqrt 2) - rint u)).
Definition centre_bin (base fs : R) (n_fft b : nat) : R := base * 2 ^ b / fs * INR n_fft.
Lemma sqrt2_bounds : 14142 / 10000 < sqrt 2 < 14143 / 10000.
Proof. assert (H : sqrt 2 * sqrt 2 = 2) by (apply sqrt_sqrt; lra). assert (0 < sqrt 2) by (apply sqrt_lt_R0; lra). split; apply Rnot_le_lt; intro; nra. Qed.
Lemma Rpower_half : forall b, Rpower 2 (0 + (INR b + / 2) / INR 1) = 2 ^ b * sqrt 2 /\ Rpower 2 (0 + (INR b - / 2) / INR 1) = 2 ^ b * sqrt 2 / 2.
Proof.
  intros b. assert (E : forall y, 0 + y / INR 1 = y) by (intros; cbn; field). rewrite !E. split.
  - rewrite Rpower_plus, Rpower_pow, Rpower_sqrt by lra. auto.
  - unfold Rminus. rewrite Rpower_plus, Rpower_pow, Rpower_Ropp, Rpower_sqrt by lra. assert (H : sqrt 2 * sqrt 2 = 2) by (apply sqrt_sqrt; lra). assert (0 < sqrt 2) by (apply sqrt_lt_R0; lra). unfold Rdiv. rewrite Rmult_assoc. f_equal. apply Rmult_eq_reg_l with (sqrt 2); [|lra]. rewrite Rinv_r by lra. lra.
Qed.
Lemma edges_octave : forall base fs overlap n_fft b, (1 <= b < antoni_bands fs base false)%nat ->
  let n := Z.to_nat (n_octaves fs base) in
  an_k1 n_fft (fst (octave_bands base false 0 n)) fs b = K1 (centre_bin base fs n_fft b) /\
  an_P n_fft (octave_centers base false 0 n) (fst (octave_bands base false 0 n)) fs overlap b = PP overlap (centre_bin base fs n_fft b).
Proof.
  intros base fs overlap n_fft b Hb n. unfold antoni_bands in Hb. fold n in Hb. unfold an_k1, an_P. destruct (Nat.eqb_spec b 0); [lia|]. rewrite nth_bands, nth_centers by lia. cbn [per_octave fst snd]. destruct (Rpower_half b) as [E1 E2]. rewrite E1, E2.
  assert (E3 : Rpower 2 (0 + INR b / INR 1) = 2 ^ b). { replace (0 + INR b / INR 1) with (INR b) by (cbn; field). apply Rpower_pow. lra. } rewrite E3. unfold an_bin, K1, PP, centre_bin. split; [f_equal; unfold Rdiv; ring|]. do 2 f_equal. do 2 f_equal; f_equal; unfold Rdiv; ring.
Qed.
Lemma edge_bounds : forall overlap u, 0 <= overlap <= / 2 -> 3 <= u ->
  (0 <= PP overlap u)%Z /\ 7071 / 10000 * u - / 2 <= IZR (K1 u) <= 70715 / 100000 * u + / 2 /\ IZR (PP overlap u) <= 20715 / 100000 * u + 1.
Proof.
  intros ov u Ho Hu. pose proof sqrt2_bounds as Hr. set (r := sqrt 2) in *. unfold K1, PP. fold r.
  pose proof (rint_err (u * r / 2)) as E1. pose proof (rint_err (u * r)) as E2. pose proof (rint_err u) as E3. set (d := (rint (u * r) - rint u)%Z). pose proof (rint_err (ov * IZR d)) as E4.
  assert (Hd : 0 <= IZR d <= 4143 / 10000 * u + 1). { unfold d. rewrite minus_IZR. assert (14142 / 10000 * u <= u * r <= 14143 / 10000 * u) by (split; nra). lra. }
  assert (Hod : 0 <= ov * IZR d <= 4143 / 20000 * u + / 2) by (split; nra). assert (14142 / 10000 * u <= u * r <= 14143 / 10000 * u) by (split; nra). split; [|split; [lra|lra]].
  assert (- 1 < IZR (rint (ov * IZR d))) by lra. apply lt_IZR in H0. lia.
Qed.
(** Edges of the bands at the bins 8, 16, 32 and 64 with overlap one half. *)
Lemma edge_8 : K1 8 = 6%Z /\ PP (/ 2) 8 = 2%Z.
Proof. pose proof sqrt2_bounds. unfold K1, PP. rewrite (rint_unique (8 * sqrt 2 / 2) 6), (rint_unique (8 * sqrt 2) 11), (rint_IZR 8) by lra. split; auto. replace (/ 2 * IZR (11 - 8)) with (IZR 1 + / 2) by (cbn; lra). now rewrite rint_half. Qed.
Lemma edge_16 : K1 16 = 11%Z /\ PP (/ 2) 16 = 4%Z.
Proof. pose proof sqrt2_bounds. unfold K1, PP. rewrite (rint_unique (16 * sqrt 2 / 2) 11), (rint_unique (16 * sqrt 2) 23), (rint_IZR 16) by lra. split; auto. replace (/ 2 * IZR (23 - 16)) with (IZR 3 + / 2) by (cbn; lra). now rewrite rint_half. Qed.
Lemma edge_32 : K1 32 = 23%Z /\ PP (/ 2) 32 = 6%Z.
Proof. pose proof sqrt2_bounds. unfold K1, PP. rewrite (rint_unique (32 * sqrt 2 / 2) 23), (rint_unique (32 * sqrt 2) 45), (rint_IZR 32) by lra. split; auto. replace (/ 2 * IZR (45 - 32)) with (IZR 6 + / 2) by (cbn; lra). now rewrite rint_half. Qed.
Lemma edge_64 : K1 64 = 45%Z /\ PP (/ 2) 64 = 14%Z.
Proof. pose proof sqrt2_bounds. unfold K1, PP. rewrite (rint_unique (64 * sqrt 2 / 2) 45), (rint_unique (64 * sqrt 2) 91), (rint_IZR 64) by lra. split; auto. replace (/ 2 * IZR (91 - 64)) with (IZR 13 + / 2) by (cbn; lra). now rewrite rint_half. Qed.
Definition clear_bin (overlap u : R) : Prop := 36 <= u \/ (overlap = / 2 /\ (u = 16 \/ u = 32)).
Lemma sep_at : forall overlap u, 0 <= overlap <= / 2 -> clear_bin overlap u -> (K1 u + PP overlap u <= K1 (2 * u) - PP overlap (2 * u))%Z.
Proof.
  intros ov u Ho [Hu|(-> & [-> | ->])].
  - destruct (edge_bounds ov u Ho ltac:(lra)) as (_ & A1 & A2). destruct (edge_bounds ov (2 * u) Ho ltac:(lra)) as (_ & B1 & B2). apply le_IZR. rewrite plus_IZR, minus_IZR. lra.
  - replace (2 * 16) with 32 by lra. destruct edge_16 as [-> ->], edge_32 as [-> ->]. lia.
  - replace (2 * 32) with 64 by lra. destruct edge_32 as [-> ->], edge_64 as [-> ->]. lia.
Qed.
Lemma edge_order : forall overlap u, 0 <= overlap <= / 2 -> 8 <= u -> (K1 u < K1 (2 * u))%Z /\ (1 <= K1 u)%Z /\ (0 <= K1 u - PP overlap u)%Z.
Proof.
  intros ov u Ho Hu. destruct (edge_bounds ov u Ho ltac:(lra)) as (_ & A1 & A2). destruct (edge_bounds ov (2 * u) Ho ltac:(lra)) as (_ & B1 & B2). split; [apply lt_IZR; lra|]. split; [apply le_IZR; lra|apply le_IZR; rewrite minus_IZR; lra].
Qed.
Lemma centre_below : forall base fs n_fft b, 0 < base -> 2 * base <= fs -> (b < antoni_bands fs base false)%nat -> centre_bin base fs n_fft b <= INR n_fft / 2.
Proof.
  intros base fs n_fft b Hb Hf Hn. destruct (C52_nyquist fs base Hb Hf) as [H0 [H1 _]]. unfold antoni_bands, octave_count in Hn. set (n := Z.to_nat (n_octaves fs base)) in *. unfold octave_bands in H1. cbn [snd] in H1. rewrite nth_centers in H1 by (cbn; lia). cbn [per_octave] in H1.
  replace (0 + INR (n - 1) / INR 1) with (INR (n - 1)) in H1 by (cbn; field). rewrite Rpower_pow in H1 by lra. assert (Hp : 2 ^ b <= 2 ^ (n - 1)) by (apply Rle_pow; [lra|lia]). unfold centre_bin.
  assert (base * 2 ^ b / fs <= / 2). { apply Rmult_le_reg_r with fs; [lra|]. unfold Rdiv. rewrite Rmult_assoc, Rinv_l by lra. assert (base * 2 ^ b <= base * 2 ^ (n - 1)) by (apply Rmult_le_compat_l; lra). lra. }
  pose proof (pos_INR n_fft). apply Rle_trans with (/ 2 * INR n_fft); [apply Rmult_le_compat_r; auto|lra].
Qed.
Lemma centre_next : forall base fs n_fft b, centre_bin base fs n_fft (b + 1) = 2 * centre_bin base fs n_fft b.
Proof. intros. unfold centre_bin. rewrite pow_add. cbn. unfold Rdiv. ring. Qed.
Lemma centre_mono : forall base fs n_fft b, 0 < base -> 0 < fs -> (1 <= b)%nat -> centre_bin base fs n_fft 1 <= centre_bin base fs n_fft b.
Proof.
  intros base fs n_fft b Hb Hf H1. unfold centre_bin. apply Rmult_le_compat_r; [apply pos_INR|]. apply Rmult_le_compat_r; [apply Rlt_le; now apply Rinv_0_lt_compat|]. apply Rmult_le_compat_l; [lra|]. apply Rle_pow; [lra|lia].
Qed.
Lemma fits_bin : forall n_fft u v, u <= INR n_fft / 2 -> IZR v <= u -> (v <= Z.of_nat (n_fft / 2))%Z.
Proof.
  intros n u v Hu Hv. assert (H : IZR (2 * v) <= IZR (Z.of_nat n)) by (rewrite mult_IZR, <- INR_IZR_INZ; lra). apply le_IZR in H. rewrite Nat2Z.inj_div. apply Z.div_le_lower_bound; lia.
Qed.
(** A band whose centre is at bin 8, 16, 32 or above fits. *)
Lemma fits_at : forall base fs overlap n_fft b, 0 < base -> 2 * base <= fs -> 0 <= overlap <= / 2 -> (1 <= b < antoni_bands fs base false)%nat ->
  (36 <= centre_bin base fs n_fft b \/ (overlap = / 2 /\ (centre_bin base fs n_fft b = 8 \/ centre_bin base fs n_fft b = 16 \/ centre_bin base fs n_fft b = 32))) -> band_fits base fs overlap false n_fft b.
Proof.
  intros base fs ov n_fft b Hb Hf Ho Hr Hu. unfold band_fits, fits, lo, hi. destruct (edges_octave base fs ov n_fft b Hr) as [-> ->]. pose proof (centre_below base fs n_fft b Hb Hf ltac:(lia)) as Hc. set (u := centre_bin base fs n_fft b) in *. assert (Hu8 : 8 <= u) by lra.
  destruct (edge_bounds ov u Ho ltac:(lra)) as (A0 & A1 & A2). destruct (edge_order ov u Ho Hu8) as (_ & O1 & O2). split; auto. split; [lia|]. intros _. split; auto. apply fits_bin with u; auto. rewrite plus_IZR.
  destruct Hu as [Hu|(-> & [E|[E|E]])]; [lra| | |]; rewrite E in *; [destruct edge_8 as [-> ->]|destruct edge_16 as [-> ->]|destruct edge_32 as [-> ->]]; lra.
Qed.
(** Octave banks with enough bins in the second band are defined and their energies sum to one. *)
Definition clear_bank (base fs overlap : R) (n_fft : nat) : Prop := forall b, (1 <= b)%nat -> clear_bin overlap (centre_bin base fs n_fft b).
Lemma clear_separated : forall base fs overlap n_fft, 0 <= overlap <= / 2 -> clear_bank base fs overlap n_fft -> separated base fs overlap false n_fft.
Proof.
  intros base fs ov n_fft Ho Hc b H1 H2. unfold edge_last, edge_first. destruct (edges_octave base fs ov n_fft b ltac:(lia)) as [-> ->]. destruct (edges_octave base fs ov n_fft (b + 1) ltac:(lia)) as [-> ->]. rewrite centre_next. apply sep_at; auto.
Qed.
Lemma bands_pos : forall base fs, 0 < base -> 2 * base <= fs -> (0 < antoni_bands fs base false)%nat.
Proof. intros base fs Hb Hf. apply (C52_nyquist fs base Hb Hf). Qed.
Lemma clear_defined : forall base fs overlap slope n_fft, 0 < base -> 2 * base <= fs -> 0 <= overlap <= / 2 -> clear_bank base fs overlap n_fft -> exists A, antoni_of base fs overlap slope false n_fft = Some A.
Proof.
  intros base fs ov slope n_fft Hb Hf Ho Hc. apply of_defined; [now apply bands_pos|]. intros b Hr. apply fits_at; auto. destruct (Hc b ltac:(lia)) as [H|(H1 & H2)]; auto 6.
Qed.
Theorem C53_wide : forall base fs overlap slope n_fft k, 0 < base -> 2 * base <= fs -> 0 <= overlap <= / 2 -> 36 <= 2 * base / fs * INR n_fft ->
  exists A, antoni_of base fs overlap slope false n_fft = Some A /\ response_energy A (antoni_bands fs base false) k = 1.
Proof.
  intros base fs ov slope n_fft k Hb Hf Ho Hw. assert (Hc : clear_bank base fs ov n_fft). { intros b H1. left. pose proof (centre_mono base fs n_fft b Hb ltac:(lra) H1) as Hm. unfold centre_bin in Hm at 1. rewrite pow_1 in Hm. replace (base * 2) with (2 * base) in Hm by ring. lra. }
  destruct (clear_defined base fs ov slope n_fft Hb Hf Ho Hc) as (A & EA). exists A. split; auto. eapply C53_energy; eauto. now apply clear_separated.
Qed.
Print Assumptions C53_wide.
Lemma default_bin : forall j b, centre_bin 125 16000 (2 ^ (7 + j)) b = 2 ^ (b + j).
Proof. intros. unfold centre_bin. rewrite pow_INR. replace (INR 2) with 2 by (cbn; lra). rewrite !pow_add. replace (2 ^ 7) with 128 by (cbn; lra). field. Qed.
Lemma default_clear : forall j, (3 <= j)%nat -> clear_bank 125 16000 (/ 2) (2 ^ (7 + j)).
Proof.
  intros j Hj b Hb. unfold clear_bin. rewrite default_bin. destruct (Nat.eq_dec (b + j) 4) as [->|N4]; [right; split; auto; left; cbn; lra|]. destruct (Nat.eq_dec (b + j) 5) as [->|N5]; [right; split; auto; right; cbn; lra|].
  left. apply Rle_trans with (2 ^ 6); [cbn; lra|]. apply Rle_pow; [lra|lia].
Qed.
(** The default bank at 16 kHz, for transforms of 1024 points or more. *)
Theorem C53_default : forall slope j k, (10 <= j)%nat -> exists A, antoni_of 125 16000 (/ 2) slope false (2 ^ j) = Some A /\ response_energy A (antoni_bands 16000 125 false) k = 1.
Proof.
  intros slope j k Hj. pose proof (default_clear (j - 7) ltac:(lia)) as Hc. replace (7 + (j - 7))%nat with j in Hc by lia. destruct (clear_defined 125 16000 (/ 2) slope (2 ^ j) ltac:(lra) ltac:(lra) ltac:(lra) Hc) as (A & EA). exists A. split; auto. eapply C53_energy; eauto. apply clear_separated; auto. lra.
Qed.
Print Assumptions C53_default.
Lemma rint_mono : forall x y, x <= y -> (rint x <= rint y)%Z.
Proof.
  intros x y H. destruct (Z.le_gt_cases (rint x) (rint y)) as [|Hg]; auto. exfalso. pose proof (rint_err x). pose proof (rint_err y). assert (IZR (rint y) + 1 <= IZR (rint x)) by (rewrite <- plus_IZR; apply IZR_le; lia).
  assert (x = y) by lra. subst. lia.
Qed.
(** Without overlap the responses are 0 or 1 and each bin is in exactly one band, for octaves and
    third octaves and any number of bins. *)
Theorem C53_no_overlap : forall base fs slope third n_fft, 0 < base -> 2 * base <= fs ->
  exists A, antoni_of base fs 0 slope third n_fft = Some A /\ forall k, response_energy A (antoni_bands fs base third) k = 1 /\ forall b, an_G A b k = 0 \/ an_G A b k = 1.
Proof.
  intros base fs slope third n_fft Hb Hf. assert (Hn : (0 < antoni_bands fs base third)%nat). { pose proof (bands_pos base fs Hb Hf) as H. unfold antoni_bands, octave_count in *. destruct third; lia. }
  set (n := Z.to_nat (n_octaves fs base)). assert (P0 : forall b, an_P n_fft (octave_centers base third 0 n) (fst (octave_bands base third 0 n)) fs 0 b = 0%Z) by (intros b; unfold an_P; rewrite Rmult_0_l; apply (rint_IZR 0)).
  assert (F : forall b, (1 <= b < antoni_bands fs base third)%nat -> band_fits base fs 0 third n_fft b).
  { intros b Hr. unfold band_fits, fits. fold n. rewrite P0. split; [lia|]. split; [|lia]. unfold an_k1. destruct (Nat.eqb_spec b 0); [lia|]. rewrite nth_bands by (unfold antoni_bands in Hr; fold n in Hr; lia). cbn [fst]. unfold an_bin. rewrite <- (rint_IZR 0). apply rint_mono. apply Rmult_le_pos; [|apply pos_INR]. apply Rmult_le_pos; [|apply Rlt_le, Rinv_0_lt_compat; lra]. apply Rmult_le_pos; [lra|]. apply Rlt_le, Rpower2_pos. }
  destruct (of_defined base fs 0 slope third n_fft Hn F) as (A & EA). exists A. split; auto. intros k. split.
  - eapply C53_energy; eauto. intros b H1 H2. unfold edge_last, edge_first. fold n. rewrite !P0, Z.add_0_r, Z.sub_0_r. unfold an_k1. destruct (Nat.eqb_spec b 0); [lia|]. destruct (Nat.eqb_spec (b + 1) 0); [lia|]. unfold antoni_bands in H2. fold n in H2. rewrite !nth_bands by lia. cbn [fst]. unfold an_bin. apply rint_mono. apply Rmult_le_compat_r; [apply pos_INR|]. apply Rmult_le_compat_r; [apply Rlt_le, Rinv_0_lt_compat; lra|]. apply Rmult_le_compat_l; [lra|]. apply Rlt_le, Rpower2_lt. apply Rplus_lt_compat_l. apply Rmult_lt_compat_r; [apply Rinv_0_lt_compat; destruct third; cbn; lra|]. rewrite plus_INR. cbn. lra.
  - intros b. destruct (of_inv _ _ _ _ _ _ _ EA) as (_ & _ & HG & _). rewrite HG. unfold row, inside. fold n. rewrite !P0. cbn [Z.ltb Z.compare andb]. rewrite !andb_false_r. destruct (_ && _); auto. destruct (_ && _); auto.
Qed.
Print Assumptions C53_no_overlap.

(** *** The default bank with 512 points *)
Lemma default_octaves : n_octaves 16000 125 = 7%Z.
Proof.
  unfold n_octaves. replace (16000 / 125) with (2 ^ 7) by (cbn; lra). unfold log2. rewrite ln_pow by lra. replace (INR 7 * ln 2 / ln 2) with (IZR 7). 2: { rewrite INR_IZR_INZ. cbn. field. apply Rgt_not_eq, log2_pos_den. }
  destruct (base_Int_part (IZR 7)) as [H1 H2]. assert (A : IZR (Int_part (IZR 7)) < IZR (7 + 1)) by (rewrite plus_IZR; lra). assert (B : IZR (7 - 1) < IZR (Int_part (IZR 7))) by (rewrite minus_IZR; lra). apply le_IZR in H1. apply lt_IZR in B. lia.
Qed.
Lemma default_bands : antoni_bands 16000 125 false = 7%nat.
Proof. unfold antoni_bands. rewrite default_octaves. reflexivity. Qed.
Lemma default_512 : forall b, centre_bin 125 16000 512 b = 2 ^ (b + 2).
Proof. intros b. exact (default_bin 2 b). Qed.
Lemma default_512_defined : exists A, antoni_of 125 16000 (/ 2) 0 false 512 = Some A.
Proof.
  apply of_defined; [rewrite default_bands; lia|]. intros b Hb. apply fits_at; auto; try lra. rewrite default_512. destruct (Nat.eq_dec b 1) as [->|]; [right; split; auto; left; cbn; lra|]. destruct (Nat.eq_dec b 2) as [->|]; [right; split; auto; right; left; cbn; lra|]. destruct (Nat.eq_dec b 3) as [->|]; [right; split; auto; right; right; cbn; lra|].
  left. apply Rle_trans with (2 ^ 6); [cbn; lra|]. apply Rle_pow; [lra|lia].
Qed.
Lemma edges_512 : forall b, (1 <= b < 7)%nat -> let bs := fst (octave_bands 125 false 0 (Z.to_nat (n_octaves 16000 125))) in let cs := octave_centers 125 false 0 (Z.to_nat (n_octaves 16000 125)) in
  an_k1 512 bs 16000 b = K1 (2 ^ (b + 2)) /\ an_P 512 cs bs 16000 (/ 2) b = PP (/ 2) (2 ^ (b + 2)).
Proof. intros b Hb bs cs. rewrite <- default_512. apply edges_octave. rewrite default_bands. lia. Qed.
Lemma edges_512_1 : let bs := fst (octave_bands 125 false 0 (Z.to_nat (n_octaves 16000 125))) in let cs := octave_centers 125 false 0 (Z.to_nat (n_octaves 16000 125)) in
  an_k1 512 bs 16000 1 = 6%Z /\ an_P 512 cs bs 16000 (/ 2) 1 = 2%Z /\ an_k1 512 bs 16000 2 = 11%Z /\ an_P 512 cs bs 16000 (/ 2) 2 = 4%Z.
Proof.
  intros bs cs. destruct (edges_512 1 ltac:(lia)) as [A1 A2]. destruct (edges_512 2 ltac:(lia)) as [B1 B2]. replace (2 ^ (1 + 2)) with 8 in * by (cbn; lra). replace (2 ^ (2 + 2)) with 16 in * by (cbn; lra). destruct edge_8 as [E1 E2], edge_16 as [E3 E4]. rewrite E1 in A1. rewrite E2 in A2. rewrite E3 in B1. rewrite E4 in B2. auto.
Qed.
Lemma low_512 : forall b, (3 <= b < 7)%nat -> (11 <= edge_first 125 16000 (/ 2) false 512 b)%Z.
Proof.
  intros b Hb. unfold edge_first. destruct (edges_512 b ltac:(lia)) as [-> ->]. assert (Hu : 32 <= 2 ^ (b + 2)). { apply Rle_trans with (2 ^ 5); [cbn; lra|]. apply Rle_pow; [lra|lia]. }
  destruct (edge_bounds (/ 2) (2 ^ (b + 2)) ltac:(lra) ltac:(lra)) as (_ & A1 & A2). assert (IZR 10 < IZR (K1 (2 ^ (b + 2)) - PP (/ 2) (2 ^ (b + 2)))) by (rewrite minus_IZR; lra). apply lt_IZR in H. lia.
Qed.
Lemma excess_512 : forall A, antoni_of 125 16000 (/ 2) 0 false 512 = Some A -> 1 < response_energy A 7 7.
Proof.
  intros A H. rewrite <- default_bands. rewrite (energy_total _ _ _ _ _ _ _ _ H). rewrite default_bands. set (cs := octave_centers 125 false 0 _). set (bs := fst _).
  destruct edges_512_1 as (K & Pb & K' & Pb'). fold cs bs in K, Pb, K', Pb'.
  assert (P0 : forall b, (1 <= b < 7)%nat -> (0 <= an_P 512 cs bs 16000 (/ 2) b)%Z) by (intros b Hb; destruct (of_inv _ _ _ _ _ _ _ H) as (_ & F & _); apply (F b); rewrite default_bands; lia).
  assert (L : forall b, (3 <= b < 7)%nat -> (Z.of_nat 7 < lo 512 cs bs 16000 (/ 2) b)%Z) by (intros b Hb; pose proof (low_512 b Hb) as Hl; unfold edge_first in Hl; fold cs bs in Hl; unfold lo; lia).
  assert (B : forall m, (2 <= m < 6)%nat -> total 512 cs bs 16000 (/ 2) 0 (m + 1) 7 = total 512 cs bs 16000 (/ 2) 0 m 7) by (intros m Hm; apply below_top; [apply P0; lia|apply L; lia]).
  assert (B6 : total 512 cs bs 16000 (/ 2) 0 6 7 = total 512 cs bs 16000 (/ 2) 0 2 7) by (transitivity (total 512 cs bs 16000 (/ 2) 0 5 7); [exact (B 5%nat ltac:(lia))|]; transitivity (total 512 cs bs 16000 (/ 2) 0 4 7); [exact (B 4%nat ltac:(lia))|]; transitivity (total 512 cs bs 16000 (/ 2) 0 3 7); [exact (B 3%nat ltac:(lia))|exact (B 2%nat ltac:(lia))]).
  change (7 - 1)%nat with 6%nat. rewrite B6. clear B B6.
  unfold total. change (2 + 1)%nat with 3%nat. cbn [bsum]. pose proof (top_two 512 cs bs 16000 (/ 2) 0 1 7 (P0 2%nat ltac:(lia))) as T. change (1 + 1)%nat with 2%nat in T. assert (Hlo : (lo 512 cs bs 16000 (/ 2) 2 <= Z.of_nat 7)%Z) by (unfold lo; rewrite K', Pb'; lia). specialize (T Hlo).
  assert (R0 : row 512 cs bs 16000 (/ 2) 0 2 0 7 = cos (PI / 2 * (3 / 4))).
  { unfold row, inside, lo, hi, phi. cbn [Nat.ltb Nat.leb andb Nat.add]. rewrite K, Pb. cbn [Z.add Z.sub Z.of_nat Z.leb Z.ltb Z.compare andb Pos.of_succ_nat Pos.succ Pos.add Pos.compare Pos.compare_cont Pos.add_carry Z.opp Z.pos_sub Pos.pred_double Z.succ_double Z.pred_double Z.double].
    f_equal. f_equal. unfold antoni_phi. cbn. lra. }
  rewrite R0. assert (Hc : 0 < cos (PI / 2 * (3 / 4))). { apply cos_gt_0; pose proof PI_RGT_0; lra. } pose proof (Rmult_lt_0_compat _ _ Hc Hc). lra.
Qed.
(** The default bank (overlap one half, 16 kHz, 512 points): the transitions of bands 1 and 2 overlap at
    bin 7 (219 Hz), whose energy is counted more than once. *)
Theorem C53_default_refuted : exists A k, antoni_of 125 16000 (/ 2) 0 false 512 = Some A /\ response_energy A (antoni_bands 16000 125 false) k <> 1.
Proof. destruct default_512_defined as (A & EA). exists A, 7%nat. split; auto. rewrite default_bands. pose proof (excess_512 A EA). lra. Qed.
Print Assumptions C53_default_refuted.

(** ** C84: decomposition and reconstruction *)
Lemma mapM_eq : forall {A B} (f : A -> option B) (g : A -> B) l ys, mapM f l = Some ys -> (forall a y, In a l -> f a = Some y -> y = g a) -> ys = map g l.
Proof.
  intros A B f g l. induction l as [|a l IH]; intros ys H Hg; cbn in H; [now apply Some_inj in H|]. destruct (f a) as [y|] eqn:E; [|discriminate]. cbn in H. destruct (mapM f l) as [ys'|]; [|discriminate]. cbn in H. apply Some_inj in H. subst ys. cbn. f_equal; [apply (Hg a); cbn; auto|]. apply IH; auto. intros b y' Hb. apply Hg. now right.
Qed.
Lemma mapM_ex : forall {A B} (f : A -> option B) l, (forall a, In a l -> exists y, f a = Some y) -> exists ys, mapM f l = Some ys.
Proof.
  intros A B f l. induction l as [|a l IH]; intros H; cbn; eauto. destruct (H a) as (y & ->); [now left|]. destruct IH as (ys & ->); [intros b Hb; apply H; now right|]. cbn. eauto.
Qed.
Lemma wav_nfft_ge : forall len, (0 < len)%nat -> (2 * len <= wav_nfft len)%nat /\ Nat.even (wav_nfft len) = true.
Proof.
  intros len H. unfold wav_nfft. split; [apply Nat.log2_log2_up_spec; lia|]. assert (1 <= Nat.log2_up (2 * len))%nat. { apply Nat.log2_up_le_mono with (a := 2%nat) (b := (2 * len)%nat). lia. }
  destruct (Nat.log2_up (2 * len)) as [|k]; [lia|]. rewrite Nat.pow_succ_r'. rewrite Nat.even_mul. reflexivity.
Qed.
Lemma X_back : forall n_fft x t, (t < n_fft)%nat -> sqrt (INR n_fft) * nth t (irfft n_fft (map (fun k => (RtoC 1 * wav_X n_fft x k)%C) (seq 0 (n_fft / 2 + 1)))) 0 = nth t x 0.
Proof.
  intros n_fft x t Ht. set (q := / sqrt (INR n_fft)).
  rewrite <- (irfft_rfft n_fft x t Ht). rewrite !nth_irfft by auto. assert (Hlow : forall k, (k < (n_fft - 1) / 2)%nat -> (k + 1 < n_fft / 2 + 1)%nat). { intros k Hk. assert (((n_fft - 1) / 2 <= n_fft / 2)%nat) by (apply Nat.div_le_mono; lia). lia. }
  assert (Hq : sqrt (INR n_fft) * q = 1). { unfold q. apply Rinv_r. apply Rgt_not_eq. apply sqrt_lt_R0. apply lt_0_INR. lia. }
  rewrite !nth_spectrum by lia. rewrite (bsum_ext _ _ (fun k => q * (2 * fst (nth (k + 1) (rfft n_fft x) C0 * omega n_fft (Z.of_nat (t * (k + 1))))%C))).
  2: { intros k Hk. rewrite nth_spectrum by auto. unfold wav_X. fold q. cbn. ring. }
  rewrite bsum_scal. unfold wav_X. fold q. set (B := bsum _ _). set (Y0 := fst (nth 0 (rfft n_fft x) C0)). replace (fst (RtoC 1 * Cscal q (nth 0 (rfft n_fft x) C0))%C) with (q * Y0) by (unfold Y0; cbn; ring).
  destruct (Nat.even n_fft).
  - set (Y1 := fst (nth (n_fft / 2) (rfft n_fft x) C0)). replace (fst (RtoC 1 * Cscal q (nth (n_fft / 2) (rfft n_fft x) C0))%C) with (q * Y1) by (unfold Y1; cbn; ring). set (o := fst (omega _ _)). transitivity ((sqrt (INR n_fft) * q) * (/ INR n_fft * (Y0 + B + Y1 * o))); [ring|]. rewrite Hq. ring.
  - transitivity ((sqrt (INR n_fft) * q) * (/ INR n_fft * (Y0 + B + 0))); [ring|]. rewrite Hq. ring.
Qed.
Section Recon.
Variables (base fs overlap : R) (slope : nat) (third : bool) (n_fft : nat) (A : antoni).
Hypothesis HA : antoni_of base fs overlap slope third n_fft = Some A.
Hypothesis Hord : ordered base fs overlap third n_fft.
Let nb := antoni_bands fs base third.
Lemma low_nonneg : forall b, (b < nb)%nat -> (0 <= an_low A b)%Z.
Proof.
  intros b Hb. destruct (of_inv _ _ _ _ _ _ _ HA) as (Hn & F & HG & HL & HH). rewrite HL. destruct (Nat.eqb_spec b 0); [lia|]. destruct (F b ltac:(fold nb; lia)) as (F1 & F2 & F3). unfold edge_first. unfold lo in F3. 
  destruct (Z.eq_dec (an_P n_fft (octave_centers base third 0 (Z.to_nat (n_octaves fs base))) (fst (octave_bands base third 0 (Z.to_nat (n_octaves fs base)))) fs overlap b) 0) as [E|E]; [rewrite E; lia|]. apply F3. lia.
Qed.
Lemma outside_zero : forall b k, (b < nb)%nat -> (k < n_fft / 2 + 1)%nat -> (Z.of_nat k < an_low A b \/ an_high A b <= Z.of_nat k)%Z -> an_G A b k = 0.
Proof.
  intros b k Hb Hk H. destruct (of_inv _ _ _ _ _ _ _ HA) as (Hn & F & HG & HL & HH). unfold nb in Hb. rewrite HG. rewrite HL, HH in H. apply row_support; [lia| | |].
  - intros c Hc. apply (Hord c); lia.
  - intros c Hc. apply (F c). lia.
  - destruct H as [H|H]; [left|right].
    + destruct (Nat.eqb_spec b 0); [lia|]. split; [lia|]. exact H.
    + destruct (Nat.eqb_spec b (antoni_bands fs base third - 1)); [lia|]. split; [lia|]. exact H.
Qed.
Lemma window_covers : forall b, (b < nb)%nat -> (0 < wav_N A b)%Z -> forall k, (k < n_fft / 2 + 1)%nat -> an_G A b k <> 0 -> (wav_low A b <= k < wav_low A b + 2 * Z.to_nat (wav_N A b))%nat.
Proof.
  intros b Hb HN k Hk HG. pose proof (low_nonneg b Hb) as Hl. unfold wav_low. assert (H : ~ (Z.of_nat k < an_low A b \/ an_high A b <= Z.of_nat k)%Z) by (intros H; apply HG, outside_zero; auto).
  unfold wav_N in *. pose proof (Z.div_mod (an_high A b - an_low A b + 1) 2 ltac:(lia)). pose proof (Z.mod_pos_bound (an_high A b - an_low A b + 1) 2 ltac:(lia)). lia.
Qed.
Definition band_out (x : vec) (b : nat) : vec := firstn (length x) (map (fun v => v * sqrt (INR n_fft)) (irfft n_fft (map (fun k => (RtoC (an_G A b k * an_G A b k) * wav_X n_fft x k)%C) (seq 0 (n_fft / 2 + 1))))).
Lemma band_out_spec : forall x b y, (b < nb)%nat -> (let* w := wavelet_analysis A n_fft x b in Some (wavelet_synthesis A n_fft (length x) b w)) = Some y -> y = band_out x b.
Proof.
  intros x b y Hb H. destruct (wavelet_analysis A n_fft x b) as [w|] eqn:E; [|discriminate]. cbn [bind] in H. apply Some_inj in H. subst y.
  assert (HN : (0 < wav_N A b)%Z) by (unfold wavelet_analysis in E; destruct (wav_N A b <=? 0)%Z eqn:E0; [discriminate|lia]).
  rewrite (band_filter A n_fft b x (low_nonneg b Hb) HN w (length x) E). unfold band_out. do 3 f_equal. apply map_ext_in. intros k Hk. apply in_seq in Hk. unfold wav_G. destruct (Nat.ltb_spec k (n_fft / 2 + 1)); [|lia].
  destruct ((wav_low A b <=? k)%nat && (k <? wav_low A b + 2 * Z.to_nat (wav_N A b))%nat) eqn:Ew; auto. destruct (Req_dec (an_G A b k) 0) as [E0|E0]; [rewrite E0; apply C_eq; cbn; ring|]. pose proof (window_covers b Hb HN k ltac:(lia) E0) as [W1 W2]. apply andb_false_elim in Ew. destruct Ew as [Ew|Ew]; [apply Nat.leb_gt in Ew; lia|apply Nat.ltb_ge in Ew; lia].
Qed.
Lemma out_nth : forall x b t, (t < length x <= n_fft)%nat -> nth t (band_out x b) 0 = sqrt (INR n_fft) * nth t (irfft n_fft (map (fun k => (RtoC (an_G A b k * an_G A b k) * wav_X n_fft x k)%C) (seq 0 (n_fft / 2 + 1)))) 0.
Proof.
  intros x b t Ht. unfold band_out. rewrite nth_firstn by lia. set (l := irfft _ _). rewrite nth_indep with (d' := 0 * sqrt (INR n_fft)) by (rewrite map_length; unfold l; rewrite irfft_length; lia). rewrite (map_nth (fun v => v * sqrt (INR n_fft))). ring.
Qed.
Lemma sum_out : forall x t, (t < length x <= n_fft)%nat -> Rsum (map (fun b => nth t (band_out x b) 0) (seq 0 nb)) =
  sqrt (INR n_fft) * nth t (irfft n_fft (map (fun k => (RtoC (response_energy A nb k) * wav_X n_fft x k)%C) (seq 0 (n_fft / 2 + 1)))) 0.
Proof.
  intros x t Ht. transitivity (Rsum (map (fun b => sqrt (INR n_fft) * nth t (irfft n_fft (map (fun k => (RtoC (an_G A b k * an_G A b k) * wav_X n_fft x k)%C) (seq 0 (n_fft / 2 + 1)))) 0) (seq 0 nb))).
  { f_equal. apply map_ext. intros b. now apply out_nth. }
  rewrite Rsum_map_mult. f_equal. pose proof (irfft_gains n_fft (map (fun b => map (fun k => an_G A b k * an_G A b k) (seq 0 (n_fft / 2 + 1))) (seq 0 nb)) (wav_X n_fft x) t ltac:(lia)) as Hg. rewrite map_map in Hg. etransitivity; [|etransitivity; [exact Hg|]].
  - f_equal. apply map_ext. intros b. f_equal. f_equal. apply map_ext_in. intros k Hk. apply in_seq in Hk. now rewrite nth_map_seq by lia.
  - f_equal. f_equal. apply map_ext_in. intros k Hk. apply in_seq in Hk. do 2 f_equal. rewrite map_map. unfold response_energy. f_equal. apply map_ext. intros b. now rewrite nth_map_seq by lia.
Qed.
End Recon.
Lemma separated_ordered : forall base fs overlap slope third n_fft A, antoni_of base fs overlap slope third n_fft = Some A -> separated base fs overlap third n_fft -> ordered base fs overlap third n_fft.
Proof.
  intros base fs ov slope third n_fft A H Hs b H1 H2. specialize (Hs b H1 H2). destruct (of_inv _ _ _ _ _ _ _ H) as (_ & F & _). destruct (F b ltac:(lia)) as (F1 & _). destruct (F (b + 1)%nat ltac:(lia)) as (F2 & _). unfold edge_last, edge_first in *. lia.
Qed.
(** The bands returned by analysis sum to the signal. *)
Theorem C84_reconstruct : forall base fs overlap slope third x ys t, antoni_analysis base fs overlap slope third x = Some ys ->
  separated base fs overlap third (wav_nfft (length x)) -> (t < length x)%nat ->
  length ys = antoni_bands fs base third /\ Rsum (map (fun y => nth t y 0) ys) = nth t x 0.
Proof.
  intros base fs ov slope third x ys t H Hs Ht. unfold antoni_analysis in H. destruct (Nat.eqb_spec (length x) 0) as [Z0|Z0]; [lia|]. destruct (wav_nfft_ge (length x) ltac:(lia)) as [Hge _]. set (n := wav_nfft (length x)) in *. destruct (antoni_of base fs ov slope third n) as [A|] eqn:EA; [|discriminate]. cbn [bind] in H.
  pose proof (separated_ordered _ _ _ _ _ _ _ EA Hs) as Ho. apply mapM_eq with (g := band_out n A x) in H. 2: { intros b y Hb Hy. apply in_seq in Hb. eapply band_out_spec; eauto. lia. }
  subst ys. split; [now rewrite map_length, seq_length|]. rewrite map_map. rewrite (sum_out base fs third) by lia. rewrite <- (X_back n x t) by lia. f_equal. f_equal. f_equal. apply map_ext. intros k. do 2 f_equal. eapply C53_energy; eauto.
Qed.
Print Assumptions C84_reconstruct.

(** The default bank takes any signal of more than 256 samples apart and puts it together again. *)
Lemma clear_windows : forall base fs overlap slope n_fft A b, 0 < base -> 2 * base <= fs -> 0 <= overlap <= / 2 -> antoni_of base fs overlap slope false n_fft = Some A ->
  8 <= centre_bin base fs n_fft 1 -> (forall c, (1 <= c < antoni_bands fs base false)%nat -> band_fits base fs overlap false n_fft c) -> (b < antoni_bands fs base false)%nat -> (0 < wav_N A b)%Z.
Proof.
  intros base fs ov slope n_fft A b Hb Hf Ho HA H8 F Hr. destruct (of_inv _ _ _ _ _ _ _ HA) as (Hn & _ & _ & HL & HH). unfold wav_N. rewrite HL, HH. enough ((if Nat.eqb b 0 then 0 else edge_first base fs ov false n_fft b) < (if Nat.eqb b (antoni_bands fs base false - 1) then Z.of_nat (n_fft / 2 + 1) else edge_last base fs ov false n_fft (b + 1)))%Z by (apply Z.div_str_pos; lia).
  assert (H8' : forall c, (1 <= c)%nat -> 8 <= centre_bin base fs n_fft c) by (intros c Hc; pose proof (centre_mono base fs n_fft c Hb ltac:(lra) Hc); lra).
  assert (E : forall c, (1 <= c < antoni_bands fs base false)%nat -> (edge_first base fs ov false n_fft c <= K1 (centre_bin base fs n_fft c) /\ K1 (centre_bin base fs n_fft c) <= edge_last base fs ov false n_fft c)%Z).
  { intros c Hc. unfold edge_first, edge_last. destruct (edges_octave base fs ov n_fft c Hc) as [-> ->]. destruct (edge_bounds ov (centre_bin base fs n_fft c) Ho ltac:(pose proof (H8' c ltac:(lia)); lra)) as (Hp & _). lia. }
  destruct (Nat.eqb_spec b (antoni_bands fs base false - 1)) as [El|Nl]; destruct (Nat.eqb_spec b 0) as [E0|N0].
  - lia.
  - pose proof (E b ltac:(lia)) as [E1 E2]. enough (K1 (centre_bin base fs n_fft b) <= Z.of_nat (n_fft / 2))%Z by lia. apply fits_bin with (centre_bin base fs n_fft b); [now apply centre_below|]. pose proof (H8' b ltac:(lia)). destruct (edge_bounds ov (centre_bin base fs n_fft b) Ho ltac:(lra)) as (_ & A1 & _). lra.
  - pose proof (E (b + 1)%nat ltac:(lia)) as [E1 E2]. destruct (edge_order ov (centre_bin base fs n_fft (b + 1)) Ho ltac:(apply H8'; lia)) as (_ & O1 & _). lia.
  - pose proof (E (b + 1)%nat ltac:(lia)) as [E1 E2]. pose proof (E b ltac:(lia)) as [E3 E4]. destruct (edge_order ov (centre_bin base fs n_fft b) Ho ltac:(apply H8'; lia)) as (O1 & _). rewrite centre_next in E2. lia.
Qed.
Lemma analysis_defined : forall base fs overlap slope x A, 0 < base -> 2 * base <= fs -> 0 <= overlap <= / 2 -> (0 < length x)%nat -> antoni_of base fs overlap slope false (wav_nfft (length x)) = Some A ->
  8 <= centre_bin base fs (wav_nfft (length x)) 1 ->
  (exists ys, antoni_analysis base fs overlap slope false x = Some ys) /\ (exists es, antoni_energy base fs overlap slope false x = Some es).
Proof.
  intros base fs ov slope x A Hb Hf Ho Hx HA H8. assert (W : forall b, In b (seq 0 (antoni_bands fs base false)) -> exists w, wavelet_analysis A (wav_nfft (length x)) x b = Some w).
  { intros b Hr. apply in_seq in Hr. destruct (of_inv _ _ _ _ _ _ _ HA) as (_ & F & _). pose proof (clear_windows base fs ov slope _ A b Hb Hf Ho HA H8 F ltac:(lia)). unfold wavelet_analysis. destruct (wav_N A b <=? 0)%Z eqn:E; [lia|eauto]. }
  unfold antoni_analysis, antoni_energy. destruct (Nat.eqb_spec (length x) 0); [lia|]. rewrite HA. cbn [bind]. split; apply mapM_ex; intros b Hr; destruct (W b Hr) as (w & ->); cbn; eauto.
Qed.
Lemma wav_nfft_default : forall len, (257 <= len)%nat -> exists j, (3 <= j)%nat /\ wav_nfft len = (2 ^ (7 + j))%nat.
Proof.
  intros len H. unfold wav_nfft. assert (10 <= Nat.log2_up (2 * len))%nat. { apply Nat.le_trans with (Nat.log2_up 514); [reflexivity|]. apply Nat.log2_up_le_mono. lia. }
  exists (Nat.log2_up (2 * len) - 7)%nat. split; [lia|]. f_equal. lia.
Qed.
Theorem C84_default : forall slope x, (257 <= length x)%nat -> exists ys, antoni_analysis 125 16000 (/ 2) slope false x = Some ys /\ length ys = 7%nat /\ forall t, (t < length x)%nat -> Rsum (map (fun y => nth t y 0) ys) = nth t x 0.
Proof.
  intros slope x Hx. destruct (wav_nfft_default _ Hx) as (j & Hj & Ej). pose proof (default_clear j Hj) as Hc. rewrite <- Ej in Hc. destruct (clear_defined 125 16000 (/ 2) slope (wav_nfft (length x)) ltac:(lra) ltac:(lra) ltac:(lra) Hc) as (A & EA).
  destruct (analysis_defined 125 16000 (/ 2) slope x A ltac:(lra) ltac:(lra) ltac:(lra) ltac:(lia) EA) as [(ys & Ey) _]. { destruct (Hc 1%nat ltac:(lia)) as [|(_ & [|])]; lra. }
  exists ys. split; auto. assert (Hs : separated 125 16000 (/ 2) false (wav_nfft (length x))) by (apply clear_separated; auto; lra). split; [rewrite <- default_bands; apply (C84_reconstruct 125 16000 (/ 2) slope false x ys 0 Ey Hs); lia|]. intros t Ht. now apply (C84_reconstruct 125 16000 (/ 2) slope false x ys t Ey Hs).
Qed.
Print Assumptions C84_default.

(** Energies of the bands: the signal's, plus once more that of the bins at 0 and half the sampling
    frequency. *)
Theorem C84_energy : forall base fs overlap slope third x es, antoni_energy base fs overlap slope third x = Some es ->
  separated base fs overlap third (wav_nfft (length x)) ->
  Rsum es = Rsum (map (fun v => v * v) x) + (Rsum x * Rsum x + Rsum (map (fun t => (-1) ^ t * nth t x 0) (seq 0 (length x))) * Rsum (map (fun t => (-1) ^ t * nth t x 0) (seq 0 (length x)))) / INR (wav_nfft (length x)).
Proof.
  intros base fs ov slope third x es H Hs. unfold antoni_energy in H. destruct (Nat.eqb_spec (length x) 0) as [Z0|Z0]; [discriminate|]. destruct (wav_nfft_ge (length x) ltac:(lia)) as [Hge Hev]. set (n := wav_nfft (length x)) in *. destruct (antoni_of base fs ov slope third n) as [A|] eqn:EA; [|discriminate]. cbn [bind] in H.
  pose proof (separated_ordered _ _ _ _ _ _ _ EA Hs) as Ho. set (nb := antoni_bands fs base third) in *. set (F := fun k => Cabs2 (wav_X n x k)).
  assert (HX : forall k, (n / 2 < k)%nat -> wav_X n x k = C0). { intros k Hk. unfold wav_X. rewrite nth_overflow by (rewrite rfft_length; lia). apply C_eq; cbn; ring. }
  apply mapM_eq with (g := fun b => 2 * bsum (n / 2 + 1) (fun k => an_G A b k * an_G A b k * F k)) in H.
  2: { intros b e Hb He. apply in_seq in Hb. destruct (wavelet_analysis A n x b) as [w|] eqn:E; [|discriminate]. cbn [bind] in He. apply Some_inj in He. subst e. f_equal. assert (HN : (0 < wav_N A b)%Z) by (unfold wavelet_analysis in E; destruct (wav_N A b <=? 0)%Z eqn:E0; [discriminate|lia]).
    rewrite (band_energy A n b x HN w E). set (M := (2 * Z.to_nat (wav_N A b))%nat). set (f := fun k => if (k <? n / 2 + 1)%nat then an_G A b k * an_G A b k * F k else 0).
    transitivity (bsum M (fun t => f (wav_low A b + t)%nat)). { apply bsum_ext. intros t Ht. rewrite Cabs2_mul. unfold f, wav_G. destruct (wav_low A b + t <? n / 2 + 1)%nat; [unfold F; f_equal; unfold Cabs2, RtoC; cbn; ring|]. unfold Cabs2 at 1, RtoC; cbn; ring. }
    transitivity (bsum (wav_low A b + M) f).
    { rewrite bsum_split. rewrite (bsum_zero_ext (wav_low A b)); [ring|]. intros k Hk. unfold f. destruct (Nat.ltb_spec k (n / 2 + 1)); auto. destruct (Req_dec (an_G A b k) 0) as [E0|E0]; [rewrite E0; ring|]. pose proof (window_covers _ _ _ _ _ _ _ EA Ho b ltac:(lia) HN k ltac:(lia) E0). lia. }
    transitivity (bsum (wav_low A b + M + (n / 2 + 1)) f); [symmetry|].
    { rewrite bsum_split. rewrite (bsum_zero_ext (n / 2 + 1)); [ring|]. intros k Hk. unfold f. destruct (Nat.ltb_spec (wav_low A b + M + k) (n / 2 + 1)); auto. destruct (Req_dec (an_G A b (wav_low A b + M + k)) 0) as [E0|E0]; [rewrite E0; ring|]. pose proof (window_covers _ _ _ _ _ _ _ EA Ho b ltac:(lia) HN _ H0 E0). unfold M in *. lia. }
    rewrite Nat.add_comm, bsum_split. rewrite (bsum_zero_ext (wav_low A b + M)). 2: { intros k Hk. unfold f. destruct (Nat.ltb_spec (n / 2 + 1 + k) (n / 2 + 1)); [lia|auto]. } rewrite Rplus_0_r. apply bsum_ext. intros k Hk. unfold f. destruct (Nat.ltb_spec k (n / 2 + 1)); [auto|lia]. }
  subst es. rewrite Rsum_map_mult. rewrite <- bsum_Rsum. rewrite bsum_swap.
  assert (E1 : bsum (n / 2 + 1) (fun k => bsum nb (fun b => an_G A b k * an_G A b k * F k)) = bsum (n / 2 + 1) F).
  { apply bsum_ext. intros k Hk. rewrite bsum_scal_r. replace (bsum nb _) with 1; [ring|]. symmetry. rewrite bsum_Rsum. exact (C53_energy _ _ _ _ _ _ _ k EA Hs). }
  rewrite E1. set (X := dft n (fun j => RtoC (nth j x 0))). assert (Hn0 : 0 < INR n) by (apply lt_0_INR; lia).
  assert (E2 : bsum (n / 2 + 1) F = / INR n * bsum (n / 2 + 1) (fun k => Cabs2 (X k))).
  { rewrite <- bsum_scal. apply bsum_ext. intros k Hk. unfold F, wav_X. rewrite Cscal_RtoC, Cabs2_mul. rewrite nth_rfft by lia. fold X. f_equal. unfold Cabs2, RtoC. cbn [fst snd]. rewrite Rmult_0_l, Rplus_0_r, <- Rinv_mult, sqrt_sqrt by lra. reflexivity. }
  assert (Hn1 : (0 < n)%nat) by lia. assert (HS : 2 * bsum (n / 2 + 1) (fun k => Cabs2 (X k)) = INR n * bsum n (fun j => nth j x 0 * nth j x 0) + Cabs2 (X 0%nat) + Cabs2 (X (n / 2)%nat)) by exact (half_spectrum n (fun j => nth j x 0) Hn1 Hev).
  assert (Ext : forall f : nat -> R, bsum n (fun j => f j * nth j x 0) = bsum (length x) (fun j => f j * nth j x 0)). { intros f. replace n with (length x + (n - length x))%nat by lia. rewrite bsum_split. rewrite (bsum_zero_ext (n - length x)); [ring|]. intros k Hk. rewrite nth_overflow by lia. ring. }
  assert (X0 : X 0%nat = RtoC (Rsum x)). { unfold X, dft. apply C_eq; cbn [fst snd csum RtoC].
    - rewrite (bsum_ext n _ (fun j => 1 * nth j x 0)) by (intros j Hj; rewrite Nat.mul_0_r; cbn [Z.of_nat Z.opp]; rewrite omega_0; cbn; ring). rewrite Ext, bsum_Rsum. f_equal. apply list_eq; [rewrite map_length, seq_length; auto|]. intros i Hi. rewrite map_length, seq_length in Hi. rewrite nth_map_seq by auto. ring.
    - apply bsum_zero_ext. intros j Hj. rewrite Nat.mul_0_r. cbn [Z.of_nat Z.opp]. rewrite omega_0. cbn. ring. }
  assert (Hw : forall j, omega n (- Z.of_nat (j * (n / 2))) = RtoC ((-1) ^ j)). { intros j. unfold omega. apply Nat.even_spec in Hev. destruct Hev as [h Eh]. replace (n / 2)%nat with h by (rewrite Eh, Nat.mul_comm, Nat.div_mul; lia). replace (2 * PI * IZR (- Z.of_nat (j * h)) / INR n) with (- (INR j * PI)).
    2: { rewrite Eh. rewrite opp_IZR, <- INR_IZR_INZ, !mult_INR. cbn [INR]. field. apply not_0_INR. lia. }
    clear. induction j as [|j IH]; [cbn; unfold cis; rewrite Rmult_0_l, Ropp_0, cos_0, sin_0; reflexivity|]. rewrite S_INR. replace (- ((INR j + 1) * PI)) with (- (INR j * PI) + - PI) by ring. rewrite cis_add, IH. unfold cis. rewrite cos_neg, sin_neg, cos_PI, sin_PI. apply C_eq; cbn; ring. }
  assert (X1 : X (n / 2)%nat = RtoC (Rsum (map (fun t => (-1) ^ t * nth t x 0) (seq 0 (length x))))). { unfold X, dft. rewrite (csum_ext n _ (fun j => RtoC ((-1) ^ j * nth j x 0))) by (intros j Hj; rewrite Hw; apply C_eq; cbn; ring). rewrite csum_RtoC, Ext, bsum_Rsum. reflexivity. }
  assert (E3 : bsum n (fun j => nth j x 0 * nth j x 0) = Rsum (map (fun v => v * v) x)). { rewrite (Ext (fun j => nth j x 0)), bsum_Rsum. f_equal. apply list_eq; [now rewrite !map_length, seq_length|]. intros i Hi. rewrite map_length, seq_length in Hi. rewrite nth_map_seq by auto. rewrite (nth_indep (map (fun v => v * v) x) 0 (0 * 0)) by (rewrite map_length; auto). now rewrite (map_nth (fun v => v * v)). }
  rewrite E2. transitivity (/ INR n * (2 * bsum (n / 2 + 1) (fun k => Cabs2 (X k)))); [ring|]. rewrite HS, E3, X0, X1. unfold Cabs2, RtoC. cbn [fst snd]. field. lra.
Qed.
Print Assumptions C84_energy.
Definition impulse (n : nat) : vec := map (fun i => if Nat.eqb i 0 then 1 else 0) (seq 0 n).
Lemma impulse_nth : forall n i, (i < n)%nat -> nth i (impulse n) 0 = if Nat.eqb i 0 then 1 else 0.
Proof. intros. unfold impulse. now rewrite nth_map_seq. Qed.
Lemma impulse_length : forall n, length (impulse n) = n. Proof. intros. unfold impulse. now rewrite map_length, seq_length. Qed.
Lemma impulse_sum : forall n (f : nat -> R), (0 < n)%nat -> Rsum (map (fun t => f t * nth t (impulse n) 0) (seq 0 n)) = f 0%nat.
Proof. intros n f Hn. rewrite <- bsum_Rsum. rewrite (bsum_delta n 0); [rewrite impulse_nth by auto; cbn; ring|auto|]. intros i Hi Hne. rewrite impulse_nth by auto. destruct (Nat.eqb_spec i 0); [lia|ring]. Qed.
(** So the energies do not add up to the energy of the signal. *)
Theorem C84_energy_refuted : exists x es, antoni_energy 125 16000 (/ 2) 0 false x = Some es /\ Rsum es <> Rsum (map (fun v => v * v) x).
Proof.
  set (x := impulse 300). assert (Hx : (257 <= length x)%nat) by (unfold x; rewrite impulse_length; lia). destruct (wav_nfft_default _ Hx) as (j & Hj & Ej). pose proof (default_clear j Hj) as Hc. rewrite <- Ej in Hc. destruct (clear_defined 125 16000 (/ 2) 0 (wav_nfft (length x)) ltac:(lra) ltac:(lra) ltac:(lra) Hc) as (A & EA).
  destruct (analysis_defined 125 16000 (/ 2) 0 x A ltac:(lra) ltac:(lra) ltac:(lra) ltac:(lia) EA) as [_ (es & Ey)]. { destruct (Hc 1%nat ltac:(lia)) as [|(_ & [|])]; lra. }
  exists x, es. split; auto. rewrite (C84_energy _ _ _ _ _ _ _ Ey) by (apply clear_separated; auto; lra).
  assert (E1 : Rsum x = 1). { pose proof (impulse_sum 300 (fun _ => 1) ltac:(lia)) as H. cbv beta in H. rewrite <- H. f_equal. unfold x at 1. unfold impulse at 1. apply map_ext_in. intros i Hi. apply in_seq in Hi. rewrite impulse_nth by lia. ring. }
  assert (E2 : Rsum (map (fun t => (-1) ^ t * nth t x 0) (seq 0 (length x))) = 1). { unfold x. rewrite impulse_length. rewrite (impulse_sum 300 (fun t => (-1) ^ t)) by lia. reflexivity. }
  rewrite E1, E2. assert (0 < INR (wav_nfft (length x))) by (apply lt_0_INR; destruct (wav_nfft_ge (length x) ltac:(lia)); lia). assert (0 < (1 * 1 + 1 * 1) / INR (wav_nfft (length x))) by (apply Rmult_lt_0_compat; [lra|now apply Rinv_0_lt_compat]). lra.
Qed.
Print Assumptions C84_energy_refuted.
(** And the default bank does not reconstruct a signal of 256 samples. *)
Theorem C84_short_refuted : exists x ys t, (t < length x)%nat /\ antoni_analysis 125 16000 (/ 2) 0 false x = Some ys /\ Rsum (map (fun y => nth t y 0) ys) <> nth t x 0.
Proof.
  set (x := impulse 256). assert (Lx : length x = 256%nat) by apply impulse_length. assert (En : wav_nfft (length x) = 512%nat) by (rewrite Lx; reflexivity). destruct default_512_defined as (A & EA). pose proof EA as EA'. rewrite <- En in EA'.
  destruct (analysis_defined 125 16000 (/ 2) 0 x A ltac:(lra) ltac:(lra) ltac:(lra) ltac:(lia) EA') as [(ys & Ey) _]. { rewrite En, default_512. cbn. lra. }
  exists x, ys, 0%nat. split; [lia|]. split; auto. unfold antoni_analysis in Ey. rewrite Lx in Ey at 1. cbn [Nat.eqb] in Ey. rewrite En, EA in Ey. cbn [bind] in Ey.
  assert (Ho : ordered 125 16000 (/ 2) false 512). { intros b H1 H2. rewrite default_bands in H2. destruct edges_512_1 as (K & Pb & K' & Pb'). destruct (Nat.eq_dec b 1) as [->|]; [unfold edge_first; cbn [Nat.add]; rewrite K, Pb, K', Pb'; lia|]. destruct (Nat.eq_dec b 2) as [->|]; [pose proof (low_512 3 ltac:(lia)); unfold edge_first at 1; rewrite K', Pb'; cbn [Nat.add] in *; lia|].
    assert (Hu : 32 <= 2 ^ (b + 2)). { apply Rle_trans with (2 ^ 5); [cbn; lra|]. apply Rle_pow; [lra|lia]. } assert (Hp : 2 ^ (b + 1 + 2) = 2 * 2 ^ (b + 2)) by (rewrite <- Nat.add_assoc, (Nat.add_comm 1), Nat.add_assoc, pow_add; cbn; lra).
    unfold edge_first. destruct (edges_512 b ltac:(lia)) as [-> ->]. destruct (edges_512 (b + 1) ltac:(lia)) as [-> ->]. rewrite Hp. destruct (edge_bounds (/ 2) (2 ^ (b + 2)) ltac:(lra) ltac:(lra)) as (B0 & B1 & B2). destruct (edge_bounds (/ 2) (2 * 2 ^ (b + 2)) ltac:(lra) ltac:(lra)) as (_ & B3 & B4). apply IZR_le in B0. apply le_IZR. rewrite !minus_IZR. lra. }
  apply mapM_eq with (g := band_out 512 A x) in Ey. 2: { intros b y Hb Hy. apply in_seq in Hb. eapply band_out_spec; eauto. lia. }
  subst ys. rewrite map_map. rewrite (sum_out 125 16000 false) by lia. rewrite default_bands. rewrite <- (X_back 512 x 0) by lia.
  intros Heq. apply Rmult_eq_reg_l in Heq. 2: { apply Rgt_not_eq, sqrt_lt_R0, lt_0_INR. lia. }
  rewrite !nth_irfft in Heq by lia. apply Rmult_eq_reg_l in Heq; [|apply Rinv_neq_0_compat, not_0_INR; lia]. rewrite !nth_spectrum in Heq by (apply Nat.ltb_lt; reflexivity).
  set (q := / sqrt (INR 512)) in *. assert (Hq : 0 < q) by (unfold q; apply Rinv_0_lt_compat, sqrt_lt_R0, lt_0_INR; lia).
  assert (HX : forall k, (k <= 256)%nat -> wav_X 512 x k = RtoC q). { intros k Hk. unfold wav_X. fold q. rewrite nth_rfft by (apply Nat.leb_le; apply Nat.leb_le in Hk; exact Hk). unfold dft. rewrite (csum_delta 512 0); [|lia|].
    - unfold x. rewrite impulse_nth by lia. cbn [Nat.eqb Nat.mul Z.of_nat Z.opp]. rewrite omega_0. apply C_eq; cbn; ring.
    - intros i Hi Hne. destruct (Nat.lt_ge_cases i 256). + unfold x. rewrite impulse_nth by auto. destruct (Nat.eqb_spec i 0); [lia|]. apply C_eq; cbn; ring. + rewrite nth_overflow by lia. apply C_eq; cbn; ring. }
  set (d := fun k => response_energy A 7 k). assert (Hd : forall k, 1 <= d k) by (intros k; unfold d; rewrite <- default_bands; eapply C53_at_least_one; eauto). assert (Hd7 : 1 < d 7%nat) by (apply excess_512; auto).
  change ((512 - 1) / 2)%nat with 255%nat in Heq. change (512 / 2)%nat with 256%nat in Heq.
  rewrite (bsum_ext 255 _ (fun k => 2 * q * d (k + 1)%nat)) in Heq. 2: { intros k Hk. rewrite nth_spectrum by lia. rewrite HX by lia. cbn [Nat.mul Z.of_nat]. rewrite omega_0. fold d. unfold d. cbn. ring. }
  rewrite (bsum_ext 255 (fun k => 2 * fst (nth (k + 1) (map (fun k0 => (RtoC 1 * _)%C) _) C0 * _)%C) (fun k => 2 * q * 1)) in Heq. 2: { intros k Hk. rewrite nth_spectrum by lia. rewrite HX by lia. cbn [Nat.mul Z.of_nat]. rewrite omega_0. cbn. ring. }
  rewrite !HX in Heq by lia. fold d in Heq. rewrite !bsum_scal in Heq.
  assert (Hs : bsum 255 (fun _ => 1) < bsum 255 (fun k => d (k + 1)%nat)). { change 255%nat with (6 + (1 + 248))%nat. rewrite !bsum_split. pose proof (bsum_le 6 (fun _ => 1) (fun k => d (k + 1)%nat) (fun i _ => Hd _)). pose proof (bsum_le 248 (fun _ => 1) (fun k => d (6 + (1 + k) + 1)%nat) (fun i _ => Hd _)). cbn [bsum] in *. cbn [Nat.add] in *. lra. }
  cbn [Nat.mul Z.of_nat Nat.even] in Heq. rewrite omega_0 in Heq. unfold RtoC, C1, Cmul in Heq. cbn [fst snd] in Heq. pose proof (Hd 0%nat) as D0. pose proof (Hd 256%nat) as D1. unfold d in *. nra.
Qed.
Print Assumptions C84_short_refuted.

(** *** Cases *)
Example C53_case : exists A, antoni_of 125 16000 (/ 2) 2 false 4096 = Some A /\ response_energy A (antoni_bands 16000 125 false) 99 = 1.
Proof. exact (C53_default 2 12 99 ltac:(lia)). Qed.
Example C84_case : exists ys, antoni_analysis 125 16000 (/ 2) 0 false (impulse 500) = Some ys /\ length ys = 7%nat /\ Rsum (map (fun y => nth 0 y 0) ys) = 1.
Proof.
  destruct (C84_default 0 (impulse 500)) as (ys & E & L & S); [rewrite impulse_length; lia|]. exists ys. split; auto. split; auto. rewrite S by (rewrite impulse_length; lia). now rewrite impulse_nth by lia.
Qed.
