From Coq Require Import List ZArith Lia Reals Lra Bool.
From Verif Require Import Base Vec Sum Cpx DftModel DftProofs WallModel SphereModel SimulateModel SimulateSpec SimulateProofs RirModel RirSpec RirProofs IsmDirModel IsmDirSpec BaseProofs.
From Verif Require StftProofs MeasureProofs RirProps.
Import ListNotations.
Local Open Scope R_scope.

(** ** Linear convolution through spectra *)
Lemma conv_dft : forall n x y k, x <> [] -> y <> [] -> (length x + length y - 1 <= n)%nat ->
  dft n (fun j => RtoC (nth j (conv x y) 0)) k = (dft n (fun j => RtoC (nth j x 0%R)) k * dft n (fun j => RtoC (nth j y 0%R)) k)%C.
Proof.
  intros n x y k Hx Hy Hl. assert (Hn : (0 < n)%nat) by (destruct x; [congruence|]; destruct y; [congruence|]; cbn in Hl; lia).
  rewrite dft_conv by auto. apply dft_ext. intros m Hm.
  assert (E : nth m (conv x y) 0 = bsum n (fun i => nth i x 0 * nth ((m + (n - i)) mod n) y 0)).
  { rewrite conv_nth by auto. rewrite <- bsum_Rsum.
    assert (Lx : (length x <= n)%nat) by (destruct y; [congruence|]; cbn in Hl; lia).
    replace n with (length x + (n - length x))%nat at 1 by lia. rewrite bsum_split.
    rewrite (bsum_zero_ext (n - length x)) by (intros i Hi; rewrite (nth_overflow x) by lia; ring).
    rewrite Rplus_0_r. apply bsum_ext. intros i Hi. f_equal. unfold at_time.
    destruct (Z.ltb_spec (Z.of_nat m - Z.of_nat i) 0).
    - symmetry. apply nth_overflow. rewrite Nat.mod_small by lia. lia.
    - f_equal. replace (m + (n - i))%nat with ((m - i) + 1 * n)%nat by lia. rewrite Nat.mod_add by lia. rewrite Nat.mod_small by lia. lia. }
  rewrite E, <- csum_RtoC. apply csum_ext. intros i Hi. apply RtoC_mul.
Qed.

(** Length of filters in series. *)
Fixpoint series_len (m : nat) (rest : list (list R)) : nat :=
  match rest with [] => m | r :: t => series_len (m + length r - 1) t end.
Lemma conv_ne : forall x y, x <> [] -> y <> [] -> conv x y <> [].
Proof. intros x y Hx Hy E. pose proof (conv_length x y Hx Hy) as L. rewrite E in L. destruct x; [congruence|]. destruct y; [congruence|]. cbn in L. lia. Qed.
Lemma series_length : forall rest x, x <> [] -> (forall r, In r rest -> r <> []) -> length (fold_left conv rest x) = series_len (length x) rest /\ fold_left conv rest x <> [].
Proof.
  induction rest as [|r rest IH]; intros x Hx Hr; cbn [fold_left series_len]; [auto|].
  assert (Rn : r <> []) by (apply Hr; now left).
  destruct (IH (conv x r)) as [A B]; [now apply conv_ne|intros; apply Hr; now right|]. rewrite conv_length in A by auto. auto.
Qed.
Lemma series_len_mono : forall rest m, (0 < m)%nat -> (forall r, In r rest -> r <> []) -> (m <= series_len m rest)%nat.
Proof.
  induction rest as [|r rest IH]; intros m Hm Hr; cbn [series_len]; auto.
  assert (Rn : r <> []) by (apply Hr; now left). destruct r as [|a r]; [congruence|]. cbn [length] in *.
  etransitivity; [|apply IH]; [lia|lia|intros; apply Hr; now right].
Qed.
Lemma fold_spectrum : forall n rest x acc, x <> [] -> (forall r, In r rest -> r <> []) ->
  (series_len (length x) rest <= n)%nat -> length acc = (n / 2 + 1)%nat ->
  (forall k, (k <= n / 2)%nat -> nth k acc C0 = dft n (fun j => RtoC (nth j x 0%R)) k) ->
  forall k, (k <= n / 2)%nat ->
    nth k (fold_left (fun fd r => map2 Cmul fd (rfft n r)) rest acc) C0 = dft n (fun j => RtoC (nth j (fold_left conv rest x) 0%R)) k.
Proof.
  induction rest as [|r rest IH]; intros x acc Hx Hr Hl La Ha k Hk; cbn [fold_left]; [auto|].
  assert (Rn : r <> []) by (apply Hr; now left). cbn [series_len] in Hl.
  assert (Lx : (0 < length x)%nat) by (destruct x; [congruence|cbn; lia]).
  assert (Lr : (0 < length r)%nat) by (destruct r; [congruence|cbn; lia]).
  apply IH; auto.
  - now apply conv_ne.
  - intros; apply Hr; now right.
  - now rewrite conv_length by auto.
  - rewrite map2_length; [exact La|]. now rewrite rfft_length.
  - intros k' Hk'. rewrite (StftProofs.nth_map2 Cmul acc (rfft n r) k' C0 C0 C0) by (rewrite ?rfft_length; lia).
    rewrite Ha, nth_rfft by auto. symmetry. apply conv_dft; auto.
    etransitivity; [|exact Hl]. apply series_len_mono; [lia|intros; apply Hr; now right].
Qed.
Lemma irfft_spectrum : forall n x X, (length x <= n)%nat -> (forall k, (k <= n / 2)%nat -> nth k X C0 = dft n (fun j => RtoC (nth j x 0%R)) k) ->
  firstn (length x) (irfft n X) = x.
Proof.
  intros n x X Hl HX. apply nth_ext with (d := 0) (d' := 0).
  - rewrite firstn_length, irfft_length. lia.
  - intros i Hi. rewrite firstn_length, irfft_length in Hi. rewrite MeasureProofs.nth_firstn by lia.
    rewrite (irfft_idft n X (dft n (fun j => RtoC (nth j x 0%R)))); [|lia|apply (dft_hermitian n (fun j => nth j x 0))|auto].
    rewrite idft_dft by lia. reflexivity.
Qed.
Lemma row_conv_series : forall n x rest, x <> [] -> (forall r, In r rest -> r <> []) -> (series_len (length x) rest <= n)%nat ->
  row_conv n (series_len (length x) rest) x rest = fold_left conv rest x.
Proof.
  intros n x rest Hx Hr Hl. unfold row_conv. destruct (series_length rest x Hx Hr) as [L _]. rewrite <- L. apply irfft_spectrum; [lia|].
  apply fold_spectrum; auto; [apply rfft_length|]. intros. now apply nth_rfft.
Qed.

(** ** multi_convolve *)
Definition good (n : nat) (s : batch) : Prop := (0 < b_taps s)%nat /\ length (b_rows s) = n /\ forall r, In r (b_rows s) -> length r = b_taps s.
Lemma conv_len_ok : forall n rest m, (forall s, In s rest -> good n s) -> forall i, (i < n)%nat ->
  conv_len n m rest = Some (series_len m (map (fun s => nth i (b_rows s) []) rest)).
Proof.
  induction rest as [|s rest IH]; intros m H i Hi; cbn [conv_len map series_len]; [reflexivity|].
  destruct (H s (or_introl eq_refl)) as (A & B & Cc). rewrite B, Nat.eqb_refl. cbn [negb].
  rewrite (IH _ ltac:(intros; apply H; now right) i Hi). do 2 f_equal. rewrite (Cc (nth i (b_rows s) [])); [lia|]. apply nth_In. lia.
Qed.
Lemma conv_len_none : forall n rest m, (exists s, In s rest /\ length (b_rows s) <> n) -> conv_len n m rest = None.
Proof.
  induction rest as [|s rest IH]; intros m (s' & Hin & Hd); [destruct Hin|]. cbn [conv_len]. destruct (Nat.eqb_spec n (length (b_rows s))) as [E|E]; cbn [negb]; [|reflexivity].
  apply IH. destruct Hin as [<-|Hin]; [congruence|eauto].
Qed.
Lemma pow2_ge : forall m, (0 < m)%nat -> pow2_len m = Some (2 ^ Nat.log2_up m)%nat /\ (m <= 2 ^ Nat.log2_up m)%nat.
Proof.
  intros m Hm. unfold pow2_len. destruct (Nat.eqb_spec m 0); [lia|]. split; auto.
  destruct (Nat.eq_dec m 1) as [->|]; [cbn; lia|]. apply Nat.log2_up_spec. lia.
Qed.
Lemma good_rows : forall n s i, good n s -> (i < n)%nat -> length (nth i (b_rows s) []) = b_taps s /\ nth i (b_rows s) [] <> [].
Proof.
  intros n s i (A & B & Cc) Hi. assert (L : length (nth i (b_rows s) []) = b_taps s) by (apply Cc, nth_In; lia). split; auto.
  intros E. rewrite E in L. cbn in L. lia.
Qed.
Lemma multi_ok : forall n signals, (0 < n)%nat -> signals <> [] -> (forall s, In s signals -> good n s) ->
  exists m, multi_convolve signals = Some m /\ good n m /\
    forall i, (i < n)%nat -> nth i (b_rows m) [] = in_series (map (fun s => nth i (b_rows s) []) signals).
Proof.
  intros n [|s0 rest] Hn Hne H; [congruence|]. unfold multi_convolve.
  assert (H0 : good n s0) by (apply H; now left). pose proof H0 as (A & B & Cc). rewrite B.
  assert (Hr : forall s, In s rest -> good n s) by (intros; apply H; now right).
  pose proof (conv_len_ok n rest (b_taps s0) Hr) as CL. pose proof (CL 0%nat Hn) as C0'. rewrite C0'.
  set (ml := series_len (b_taps s0) (map (fun s => nth 0 (b_rows s) []) rest)) in *.
  assert (CL' : forall i, (i < n)%nat -> series_len (b_taps s0) (map (fun s => nth i (b_rows s) []) rest) = ml).
  { intros i Hi. specialize (CL i Hi). congruence. }
  assert (Rn : forall i, (i < n)%nat -> forall r, In r (map (fun s => nth i (b_rows s) []) rest) -> r <> []).
  { intros i Hi r Hin. apply in_map_iff in Hin as (s & <- & Hs). now apply (good_rows n s i (Hr s Hs) Hi). }
  assert (Mp : (0 < ml)%nat). { pose proof (series_len_mono (map (fun s => nth 0 (b_rows s) []) rest) (b_taps s0) A (Rn 0%nat Hn)). unfold ml. lia. }
  destruct (pow2_ge ml Mp) as [P1 P2]. cbn [bind]. rewrite P1. cbn [bind]. eexists. split; [reflexivity|].
  assert (V : forall i, (i < n)%nat -> row_conv (2 ^ Nat.log2_up ml) ml (nth i (b_rows s0) []) (map (fun s => nth i (b_rows s) []) rest) =
    fold_left conv (map (fun s => nth i (b_rows s) []) rest) (nth i (b_rows s0) [])).
  { intros i Hi. destruct (good_rows n s0 i H0 Hi) as [L Ne]. specialize (CL' i Hi). rewrite <- L in CL'. rewrite <- CL' in P2 |- *.
    apply row_conv_series; [exact Ne|exact (Rn i Hi)|exact P2]. }
  cbn [b_taps b_rows]. split; [|intros i Hi; rewrite nth_map_seq by auto; now rewrite V].
  repeat split; cbn [b_taps b_rows]; [exact Mp|now rewrite map_length, seq_length|].
  intros r Hin. apply in_map_iff in Hin as (i & <- & Hi). apply in_seq in Hi. rewrite V by lia.
  destruct (good_rows n s0 i H0 ltac:(lia)) as [L Ne].
  destruct (series_length (map (fun s => nth i (b_rows s) []) rest) (nth i (b_rows s0) []) Ne (Rn i ltac:(lia))) as [S1 _].
  rewrite S1, L. apply CL'. lia.
Qed.

(** ** Full band construction *)
Lemma Zlist_min_in : forall l, l <> [] -> In (Zlist_min l) l.
Proof.
  intros [|z zs] H; [congruence|]. unfold Zlist_min. cbn [hd tl]. clear H. revert z.
  induction zs as [|y zs IH]; intros z; [now left|]. cbn [fold_left]. destruct (IH (Z.min z y)) as [E|E]; [|right; now right].
  rewrite <- E. destruct (Z.min_spec z y) as [[_ ->]|[_ ->]]; [now left|right; now left].
Qed.
Section FullBand.
Variables (J : list nat) (d : nat -> R) (nb : nat) (a : nat -> nat -> R) (filters : list (nat * (nat -> list R))).
Variables (synth : list R -> list R) (n_fft : nat) (min_phase : bool) (c : R) (fs : Z) (fdl gran T : nat).
Hypothesis HJ : J <> [].
Hypothesis Hd : forall j, 0 <= d j.
Hypothesis Hnb : (0 < nb)%nat.
Hypothesis Hf : forall f, In f filters -> (0 < fst f)%nat /\ forall j, length (snd f j) = fst f.
Hypothesis Hs : forall x, length (synth x) = n_fft.
Hypothesis Hn : nb = 1%nat \/ (0 < n_fft)%nat.
Hypothesis Hc : 0 < c.
Hypothesis Hfs : (0 < fs)%Z.
Hypothesis Ho : (fdl mod 2 = 1)%nat.
Hypothesis Hg : (0 < gran)%nat.
Hypothesis HT : (0 < T)%nat.
Let dist := map d J.
Let amps := map (fun b => map (a b) J) (seq 0 nb).
Let irs := map (fun f => {| b_taps := fst f; b_rows := map (snd f) J |}) filters.
Let t j := d j / c * IZR fs.
Let fd j := map (fd_tap fdl gran (t j - IZR (Zfloor (t j)))) (seq 0 fdl).
Definition image_filter (j : nat) : list R :=
  if Nat.eqb nb 1 then map (fun x => x * a 0%nat j) (in_series (map (fun f => snd f j) filters ++ [fd j]))
  else in_series (map (fun f => snd f j) filters ++ [fd j; synth (map (fun b => a b j) (seq 0 nb))]).

Lemma t_pos : forall j, 0 <= t j.
Proof. intros j. unfold t. apply Rmult_le_pos; [apply Rmult_le_pos; [apply Hd|left; now apply Rinv_0_lt_compat]|]. apply IZR_le. lia. Qed.
Lemma fdl_pos : (0 < fdl)%nat.
Proof. destruct fdl; [discriminate|lia]. Qed.
Lemma J_pos : (0 < length J)%nat.
Proof. destruct J; [congruence|cbn; lia]. Qed.
Lemma nth_mapJ : forall {A} (f : nat -> A) dflt k, (k < length J)%nat -> nth k (map f J) dflt = f (nth k J 0%nat).
Proof. intros A f dflt k Hk. rewrite (nth_indep _ dflt (f 0%nat)) by (now rewrite map_length). apply map_nth. Qed.

Lemma delays_ok : (exists flat, fractional_delay (frac_parts dist c (IZR fs)) fdl gran T (repeat 0 (length dist * fdl)) flat) /\
  forall flat, fractional_delay (frac_parts dist c (IZR fs)) fdl gran T (repeat 0 (length dist * fdl)) flat ->
    unflatten (length dist) fdl flat = map fd J.
Proof.
  set (fp := frac_parts dist c (IZR fs)). assert (Efp : fp = map (fun j => t j - IZR (Zfloor (t j))) J) by (unfold fp, frac_parts, dist; now rewrite map_map).
  assert (Lf : length fp = length dist) by (unfold fp, frac_parts; apply map_length).
  assert (Ld : length dist = length J) by apply map_length.
  destruct (RirProps.C81_fractional_delay_rows fp fdl gran T (repeat 0 (length dist * fdl)) Hg HT fdl_pos) as (_ & A & B).
  - now rewrite repeat_length, Lf.
  - intros x Hx. rewrite Efp in Hx. apply in_map_iff in Hx as (j & <- & _). pose proof (Zfloor_bounds (t j)). lra.
  - split; [exact A|]. intros flat Hflat. destruct (B flat Hflat) as [_ V]. unfold unflatten. rewrite Ld.
    assert (Odd : Nat.even fdl = false).
    { destruct (Nat.even fdl) eqn:E; auto. apply Nat.even_spec in E as (m & E). rewrite E, Nat.mul_comm, Nat.mod_mul in Ho by lia. discriminate. }
    apply nth_ext with (d := []) (d' := []); [now rewrite !map_length, seq_length|]. intros k Hk. rewrite map_length, seq_length in Hk.
    rewrite nth_map_seq by auto. rewrite (nth_mapJ fd) by auto. unfold fd. apply map_ext_in. intros i Hi. apply in_seq in Hi.
    rewrite V by lia. cbv zeta. rewrite Odd. destruct (Nat.ltb_spec i fdl); [|lia]. f_equal. rewrite Efp. now rewrite (nth_mapJ (fun j => t j - IZR (Zfloor (t j)))).
Qed.
Lemma good_map : forall n (h : nat -> list R), (0 < n)%nat -> (forall j, length (h j) = n) -> good (length J) {| b_taps := n; b_rows := map h J |}.
Proof. intros n h H1 H2. repeat split; cbn [b_taps b_rows]; [auto|apply map_length|]. intros r Hr. apply in_map_iff in Hr as (j & <- & _). apply H2. Qed.

Lemma trans_J : transpose (length dist) amps = map (fun j => map (fun b => a b j) (seq 0 nb)) J.
Proof.
  unfold transpose. rewrite (map_length d J : length dist = length J). apply nth_ext with (d := []) (d' := []); [now rewrite !map_length, seq_length|].
  intros k Hk. rewrite map_length, seq_length in Hk. rewrite nth_map_seq by auto. rewrite (nth_mapJ (fun j => map (fun b => a b j) (seq 0 nb))) by auto.
  unfold amps. rewrite map_map. apply map_ext. intros b. now rewrite (nth_mapJ (a b)).
Qed.
Lemma map2_J : forall {A B D} (f : A -> B -> D) (u : list A) (v : nat -> B) da, length u = length J ->
  map2 f u (map v J) = map (fun k => f (nth k u da) (v (nth k J 0%nat))) (seq 0 (length J)).
Proof.
  clear. intros A B D f u v da. revert u. induction J as [|j J' IH]; intros [|x u] H; cbn in H; try discriminate; [reflexivity|].
  cbn [map map2 length seq nth]. f_equal. rewrite (IH u) by lia. rewrite <- seq_shift, map_map. reflexivity.
Qed.

Lemma irs_ok : exists irs',
  (let fdb := {| b_taps := fdl; b_rows := map fd J |} in
     if Nat.eqb (length amps) 1
      then let* m := multi_convolve (irs ++ [fdb]) in
           Some {| b_taps := b_taps m; b_rows := map2 (fun row a => map (fun x => x * a) row) (b_rows m) (nth 0 amps []) |}
      else multi_convolve (irs ++ [fdb; {| b_taps := n_fft; b_rows := map synth (transpose (length dist) amps) |}])) = Some irs' /\
  good (length J) irs' /\ forall k, (k < length J)%nat -> nth k (b_rows irs') [] = image_filter (nth k J 0%nat).
Proof.
  assert (La : length amps = nb) by (unfold amps; now rewrite map_length, seq_length). rewrite La. cbv zeta.
  assert (Gf : good (length J) {| b_taps := fdl; b_rows := map fd J |}).
  { apply good_map; [apply fdl_pos|]. intros. unfold fd. now rewrite map_length, seq_length. }
  assert (Gi : forall s, In s irs -> good (length J) s).
  { intros s Hin. unfold irs in Hin. apply in_map_iff in Hin as (f & <- & Hin). destruct (Hf f Hin). now apply good_map. }
  assert (Ri : forall k, (k < length J)%nat -> map (fun s => nth k (b_rows s) []) irs = map (fun f => snd f (nth k J 0%nat)) filters).
  { intros k Hk. unfold irs. rewrite map_map. apply map_ext. intros f. cbn [b_rows]. now rewrite (nth_mapJ (snd f)). }
  unfold image_filter. destruct (Nat.eqb_spec nb 1) as [E|E].
  - destruct (multi_ok (length J) (irs ++ [{| b_taps := fdl; b_rows := map fd J |}])) as (m & M1 & (G1 & G2 & G3) & M2).
    { apply J_pos. } { destruct irs; discriminate. }
    { intros s Hin. apply in_app_or in Hin as [Hin|[<-|[]]]; auto. }
    rewrite M1. cbn [bind]. eexists. split; [reflexivity|].
    assert (A0 : nth 0 amps [] = map (a 0%nat) J) by (unfold amps; now rewrite nth_map_seq by lia). rewrite A0.
    rewrite (map2_J _ _ _ []) by auto. split.
    + repeat split; cbn [b_taps b_rows]; [auto|now rewrite map_length, seq_length|].
      intros r Hr. apply in_map_iff in Hr as (k & <- & Hk). apply in_seq in Hk. rewrite map_length. apply G3. apply nth_In. lia.
    + intros k Hk. cbn [b_rows]. rewrite nth_map_seq by auto. rewrite M2 by auto. rewrite map_app, Ri by auto. cbn [map b_rows]. now rewrite (nth_mapJ fd).
  - destruct (multi_ok (length J) (irs ++ [{| b_taps := fdl; b_rows := map fd J |}; {| b_taps := n_fft; b_rows := map synth (transpose (length dist) amps) |}])) as (m & M1 & G & M2).
    { apply J_pos. } { destruct irs; discriminate. }
    { intros s Hin. apply in_app_or in Hin as [Hin|[<-|[<-|[]]]]; auto. rewrite trans_J, map_map. apply good_map; [lia|]. intros. apply Hs. }
    exists m. split; [exact M1|]. split; [exact G|]. intros k Hk. rewrite M2 by auto. rewrite map_app, Ri by auto. cbn [map b_rows].
    rewrite trans_J, map_map. rewrite (nth_mapJ fd), (nth_mapJ (fun j => synth (map (fun b => a b j) (seq 0 nb)))) by auto. reflexivity.
Qed.

Lemma full_band_ok :
  (exists result, full_band synth n_fft min_phase dist amps irs c fs fdl gran T result) /\
  forall result, full_band synth n_fft min_phase dist amps irs c fs fdl gran T result ->
    forall i, nth i result 0 = Rsum (map (fun j => started (Zfloor (t j)) (image_filter j) (i + (if (1 <? nb)%nat && negb min_phase then n_fft / 2 else 0))) J).
Proof.
  assert (La : length amps = nb) by (unfold amps; now rewrite map_length, seq_length).
  destruct delays_ok as [(flat0 & F0) FU]. destruct irs_ok as (irs' & I1 & (G1 & G2 & G3) & I2).
  set (ip := int_delays dist c (IZR fs)) in *.
  assert (Eip : ip = map (fun j => Zfloor (t j)) J) by (unfold ip, int_delays, dist; now rewrite map_map).
  assert (Lip : length ip = length J) by (rewrite Eip; apply map_length).
  assert (Ip0 : forall z, In z ip -> (0 <= z)%Z).
  { intros z Hz. rewrite Eip in Hz. apply in_map_iff in Hz as (j & <- & _). pose proof (Zfloor_bounds (t j)). pose proof (t_pos j).
    assert (-1 < Zfloor (t j))%Z; [|lia]. apply lt_IZR. lra. }
  assert (IpN : ip <> []) by (intros E; rewrite E in Lip; cbn in Lip; pose proof J_pos; lia).
  pose proof (Zlist_max_in ip IpN) as Mx. pose proof (Ip0 _ Mx) as Mx0.
  set (L := Z.to_nat (Zlist_max ip + Z.of_nat (b_taps irs'))).
  assert (Acc : ds_accepts (b_rows irs') (b_taps irs') ip (length (repeat 0 L)) = true).
  { unfold ds_accepts. rewrite G2, Lip, Nat.eqb_refl. cbn [negb]. rewrite repeat_length.
    assert (Mt : forall X : bool, match ip with [] => false | _ => X end = X) by (intros; destruct ip; congruence). rewrite Mt.
    destruct (Z.ltb_spec (Zlist_min ip) 0) as [B|B]; [apply Zlist_min_in, Ip0 in IpN; lia|].
    destruct (Z.ltb_spec (Z.of_nat L) (Zlist_max ip + Z.of_nat (b_taps irs'))); [unfold L in *; lia|reflexivity]. }
  destruct (RirProps.C27_delay_sum_is_overlap_add (b_rows irs') (b_taps irs') ip (repeat 0 L) T HT G3 Acc) as (_ & (rir & R1) & R2).
  assert (V : forall rir, delay_sum (b_rows irs') (b_taps irs') ip (repeat 0 L) T rir -> forall i,
    nth i rir 0 = Rsum (map (fun j => started (Zfloor (t j)) (image_filter j) i) J)).
  { intros r Hr i. destruct (R2 r Hr) as [Lr Vr]. rewrite repeat_length in Lr, Vr.
    assert (S : Rsum (map (fun j => started (Zfloor (t j)) (image_filter j) i) J) =
      Rsum (map (fun k => started (nth k ip 0%Z) (nth k (b_rows irs') []) i) (seq 0 (length J)))).
    { rewrite (Rsum_seq_nth J). apply Rsum_map_ext. intros k Hk. apply in_seq in Hk. rewrite I2 by lia. f_equal.
      rewrite Eip. now rewrite (nth_mapJ (fun j => Zfloor (t j))) by lia. }
    rewrite S. destruct (Nat.lt_ge_cases i L) as [Hi|Hi].
    - rewrite Vr by auto. rewrite nth_repeat, Rplus_0_l. unfold delayed_sum. rewrite G2. apply Rsum_map_ext. intros k Hk. apply in_seq in Hk.
      assert (Lk : length (nth k (b_rows irs') []) = b_taps irs') by (apply G3, nth_In; lia).
      unfold started. cbv zeta. destruct (Z.leb_spec 0 (Z.of_nat i - nth k ip 0%Z)); destruct (Z.ltb_spec (Z.of_nat i - nth k ip 0%Z) 0); try lia; cbn [andb]; [|reflexivity].
      destruct (Z.ltb_spec (Z.of_nat i - nth k ip 0%Z) (Z.of_nat (b_taps irs'))); [reflexivity|]. symmetry. apply nth_overflow. lia.
    - rewrite nth_overflow by lia. symmetry. apply Rsum_map_zero. intros k Hk. apply in_seq in Hk.
      assert (Lk : length (nth k (b_rows irs') []) = b_taps irs') by (apply G3, nth_In; lia).
      assert (Hk' : In (nth k ip 0%Z) ip) by (apply nth_In; lia). apply Zlist_max_ge in Hk'.
      unfold started. cbv zeta. destruct (Z.ltb_spec (Z.of_nat i - nth k ip 0%Z) 0); [reflexivity|]. apply nth_overflow. unfold L in *. lia. }
  split.
  - eexists. exists flat0, irs', rir. split; [exact F0|]. cbv zeta. rewrite (FU _ F0). split; [exact I1|]. split; [exact R1|reflexivity].
  - intros result (flat & irs2 & r & F1 & E1 & D1 & ->) i. cbv zeta in E1. rewrite (FU _ F1) in E1. cbv zeta in I1. rewrite I1 in E1. injection E1 as <-.
    rewrite La. fold ip in D1. fold L in D1. destruct ((1 <? nb)%nat && negb min_phase).
    + rewrite MeasureProofs.nth_skipn. rewrite (V r D1). apply Rsum_map_ext. intros j _. f_equal. lia.
    + rewrite (V r D1). now rewrite Nat.add_0_r.
Qed.
End FullBand.
