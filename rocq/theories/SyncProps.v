(** C65: delay estimation and alignment. *)
From Coq Require Import List ZArith Lia Reals Lra Bool R_Ifp.
From Verif Require Import Base BaseProofs Vec Sum Cpx DftModel DftProofs SimulateModel SimulateSpec SimulateProofs SyncModel UtilModel UtilProps LevinsonProps CorrProps LpcProps BandsProps.
Import ListNotations.
Local Open Scope R_scope.

(** A signal embedded in zeros. *)
Definition pad (a : nat) (s : vec) (b : nat) : vec := repeat 0 a ++ s ++ repeat 0 b.
Lemma pad_length : forall a s b, length (pad a s b) = (a + length s + b)%nat.
Proof. intros. unfold pad. rewrite !app_length, !repeat_length. lia. Qed.
Lemma pad_at : forall a s b t, at_time (pad a s b) t = at_time s (t - Z.of_nat a).
Proof.
  intros a s b t. unfold pad, at_time. destruct (Z.ltb_spec t 0), (Z.ltb_spec (t - Z.of_nat a) 0); auto; try lia.
  - rewrite app_nth1 by (rewrite repeat_length; lia). apply nth_repeat.
  - rewrite app_nth2, repeat_length by (rewrite repeat_length; lia). replace (Z.to_nat t - a)%nat with (Z.to_nat (t - Z.of_nat a)) by lia. set (k := Z.to_nat (t - Z.of_nat a)). destruct (Nat.lt_ge_cases k (length s)); [now rewrite app_nth1|]. rewrite app_nth2, nth_repeat by auto. now rewrite nth_overflow.
Qed.
Lemma pad_nth : forall a s b n, nth n (pad a s b) 0 = at_time s (Z.of_nat n - Z.of_nat a).
Proof. intros. now rewrite <- at_time_nat, pad_at. Qed.

(** ** The position of the maximum *)
Lemma argmax_keep : forall l best k i, Forall (fun v => v <= best) l -> argmax_from best k i l = k.
Proof. induction l as [|v l IH]; intros best k i H; cbn; auto. inversion H; subst. destruct (Rlt_dec best v); [lra|auto]. Qed.
Lemma argmax_found : forall l best k i j, (j < length l)%nat -> best < nth j l 0 -> (forall m, (m < length l)%nat -> m <> j -> nth m l 0 < nth j l 0) -> argmax_from best k i l = (i + j)%nat.
Proof.
  induction l as [|v l IH]; intros best k i j Hj Hb H; [cbn in Hj; lia|]. cbn [argmax_from]. destruct j as [|j].
  - cbn in Hb. destruct (Rlt_dec best v); [|lra]. rewrite Nat.add_0_r. apply argmax_keep. apply Forall_forall. intros w Hw. destruct (In_nth l w 0 Hw) as (m & Hm & <-). specialize (H (S m) ltac:(cbn; lia) ltac:(lia)). cbn in H. lra.
  - cbn [nth] in Hb. assert (H0 := H 0%nat ltac:(cbn; lia) ltac:(lia)). cbn [nth] in H0. assert (H' : forall m, (m < length l)%nat -> m <> j -> nth m l 0 < nth j l 0) by (intros m Hm Hne; apply (H (S m)); [cbn; lia|lia]). cbn in Hj. replace (i + S j)%nat with (S i + j)%nat by lia. destruct (Rlt_dec best v); apply IH; auto; lia.
Qed.
Lemma argmax_unique : forall l j, (j < length l)%nat -> (forall m, (m < length l)%nat -> m <> j -> nth m l 0 < nth j l 0) -> argmax l = j.
Proof.
  intros [|v l] j Hj H; [cbn in Hj; lia|]. cbn [argmax]. destruct j as [|j].
  - apply argmax_keep. apply Forall_forall. intros w Hw. destruct (In_nth l w 0 Hw) as (m & Hm & <-). specialize (H (S m) ltac:(cbn; lia) ltac:(lia)). cbn in H. lra.
  - rewrite (argmax_found l v 0 1 j); [reflexivity|cbn in Hj; lia|apply (H 0%nat); [cbn; lia|lia]|]. intros m Hm Hne. apply (H (S m)); [cbn; lia|lia].
Qed.
Lemma argmax_from_lt : forall l best k i n, (k < n)%nat -> (i + length l <= n)%nat -> (argmax_from best k i l < n)%nat.
Proof. induction l as [|v l IH]; intros best k i n Hk Hi; cbn in *; auto. destruct (Rlt_dec best v); apply IH; lia. Qed.
Lemma argmax_lt : forall l, l <> [] -> (argmax l < length l)%nat.
Proof. intros [|v l] H; [congruence|]. cbn [argmax length]. apply argmax_from_lt; lia. Qed.

(** ** A weighted spectrum peaks only at lag zero *)
Section Peak.
Variables (N : nat) (s : vec).
Hypothesis Hs : ~ silent s.
Hypothesis HN : (2 * length s <= N + 1)%nat.
Definition shat (k : nat) : C := dft N (fun j => RtoC (nth j s 0)) k.
Lemma last_nonzero : exists t, (t < length s)%nat /\ nth t s 0 <> 0 /\ forall j, (t < j)%nat -> nth j s 0 = 0.
Proof.
  destruct (not_silent s Hs) as (n & Hn & A). destruct (first_nonzero (fun i => nth (length s - 1 - i) s 0) (length s)) as (i & Hi & B & Z). { exists (length s - 1 - n)%nat. split; [lia|]. now replace (length s - 1 - (length s - 1 - n))%nat with n by lia. }
  exists (length s - 1 - i)%nat. split; [lia|]. split; auto. intros j Hj. destruct (Nat.lt_ge_cases j (length s)); [|now rewrite nth_overflow]. specialize (Z (length s - 1 - j)%nat ltac:(lia)). now replace (length s - 1 - (length s - 1 - j))%nat with j in Z by lia.
Qed.
(** A short signal is not periodic on the circle, even up to sign. *)
Lemma aperiodic : forall n sg, (0 < n < N)%nat -> sg <> 0 -> (forall j, (j < N)%nat -> nth ((j + n) mod N) s 0 = sg * nth j s 0) -> False.
Proof.
  intros n sg Hn Hsg H. destruct (first_nonzero _ _ (not_silent s Hs)) as (t0 & H0 & A0 & Z0). destruct last_nonzero as (t1 & H1 & A1 & Z1).
  assert (T : (t0 <= t1)%nat). { destruct (Nat.le_gt_cases t0 t1); auto. exfalso. apply A1. auto. }
  cbv beta in A0, Z0. assert (Q0 := H t0 ltac:(lia)). assert (Q1 := H t1 ltac:(lia)).
  assert (P0 : nth ((t0 + n) mod N) s 0 <> 0) by (rewrite Q0; apply Rmult_integral_contrapositive_currified; auto). assert (P1 : nth ((t1 + n) mod N) s 0 <> 0) by (rewrite Q1; apply Rmult_integral_contrapositive_currified; auto).
  destruct (Nat.lt_ge_cases (t0 + n) N) as [Hw|Hw].
  - rewrite Nat.mod_small in P0 by auto. assert (t0 + n <= t1)%nat. { destruct (Nat.le_gt_cases (t0 + n) t1); auto. exfalso. apply P0. apply Z1. lia. } rewrite Nat.mod_small in P1 by lia. apply P1. apply Z1. lia.
  - rewrite mod_once in P0 by lia. apply P0. rewrite Z0 by lia. reflexivity.
Qed.
Lemma omega_re_1 : forall m, fst (omega N m) = 1 -> omega N m = C1.
Proof. intros m H. pose proof (omega_abs2 N m) as A. unfold Cabs2 in A. rewrite H in A. apply C_eq; cbn [fst snd C1 RtoC]; auto. apply Rsqr_0_uniq. unfold Rsqr. lra. Qed.
Lemma omega_re_m1 : forall m, fst (omega N m) = -1 -> omega N m = RtoC (-1).
Proof. intros m H. pose proof (omega_abs2 N m) as A. unfold Cabs2 in A. rewrite H in A. apply C_eq; cbn [fst snd C1 RtoC]; auto. apply Rsqr_0_uniq. unfold Rsqr. lra. Qed.
Lemma omega_re_bound : forall m, -1 <= fst (omega N m) <= 1.
Proof. intros m. unfold omega, cis. cbn. apply COS_bound. Qed.
Variable w : nat -> R.
Hypothesis Hw : forall k, (k < N)%nat -> 0 <= w k /\ (w k = 0 -> shat k = C0).
Definition G (n : Z) : R := bsum N (fun k => w k * fst (omega N (n * Z.of_nat k))).
Lemma peak_strict : forall n sg, (n mod Z.of_nat N <> 0)%Z -> (sg = 1 \/ sg = -1) -> sg * G n < G 0.
Proof.
  intros n sg Hn Hsg. assert (HNp : (0 < N)%nat). { destruct (not_silent s Hs) as (i & Hi & _). lia. }
  assert (D : forall k, (k < N)%nat -> 0 <= w k * (1 - sg * fst (omega N (n * Z.of_nat k)))). { intros k Hk. apply Rmult_le_pos; [apply Hw; auto|]. pose proof (omega_re_bound (n * Z.of_nat k)). destruct Hsg as [->| ->]; lra. }
  assert (E : G 0 - sg * G n = bsum N (fun k => w k * (1 - sg * fst (omega N (n * Z.of_nat k))))). { unfold G. rewrite <- bsum_scal, <- bsum_minus. apply bsum_ext. intros k Hk. rewrite Z.mul_0_l, omega_0. cbn [fst C1]. ring. }
  pose proof (bsum_nonneg N _ D) as P. destruct (Rle_lt_or_eq_dec _ _ P) as [Lt|Eq]; [lra|]. exfalso.
  assert (Z : forall k, (k < N)%nat -> w k * (1 - sg * fst (omega N (n * Z.of_nat k))) = 0). { intros k Hk. pose proof (bsum_ge_term N (fun k => w k * (1 - sg * fst (omega N (n * Z.of_nat k)))) k Hk D) as Q. cbv beta in Q. specialize (D k Hk). lra. }
  assert (Om : forall k, (k < N)%nat -> ((omega N (n * Z.of_nat k) - RtoC sg) * shat k)%C = C0).
  { intros k Hk. specialize (Z k Hk). apply Rmult_integral in Z. destruct Z as [Z|Z]; [rewrite (proj2 (Hw k Hk) Z); ring|]. assert (omega N (n * Z.of_nat k) = RtoC sg) as ->; [|ring]. destruct Hsg as [->| ->]; [change (RtoC 1) with C1; apply omega_re_1; lra|apply omega_re_m1; lra]. }
  set (m := Z.to_nat (n mod Z.of_nat N)). assert (Hm : (0 < m < N)%nat) by (unfold m; pose proof (Z.mod_pos_bound n (Z.of_nat N) ltac:(lia)); lia).
  apply (aperiodic m sg Hm). { destruct Hsg as [->| ->]; lra. } intros j Hj.
  set (y j := RtoC (nth ((j + m) mod N) s 0 - sg * nth j s 0)). assert (Y : y j = C0).
  { rewrite <- (idft_dft N y j Hj). unfold idft. rewrite csum_zero_ext; [apply C_eq; cbn; ring|]. intros k Hk. replace (dft N y k) with ((omega N (n * Z.of_nat k) - RtoC sg) * shat k)%C; [rewrite Om by auto; ring|].
    unfold shat, dft, y. rewrite (csum_ext _ (fun j0 => (RtoC (nth ((j0 + m) mod N) s 0 - sg * nth j0 s 0) * omega N (- Z.of_nat (j0 * k)))%C) (fun j0 => (RtoC (nth ((j0 + m) mod N) s 0) * omega N (- Z.of_nat (j0 * k)) - RtoC sg * (RtoC (nth j0 s 0) * omega N (- Z.of_nat (j0 * k))))%C)) by (intros i Hi; apply C_eq; cbn; ring).
    rewrite csum_sub, csum_scal. transitivity (omega N (n * Z.of_nat k) * csum N (fun j => RtoC (nth j s 0%R) * omega N (- Z.of_nat (j * k))) - RtoC sg * csum N (fun j => RtoC (nth j s 0%R) * omega N (- Z.of_nat (j * k))))%C; [ring|]. f_equal.
    rewrite <- (csum_mod N m (fun j => RtoC (nth j s 0%R) * omega N (- Z.of_nat (j * k)))%C) by auto. rewrite <- csum_scal. apply csum_ext. intros i Hi. transitivity (RtoC (nth ((i + m) mod N) s 0%R) * (omega N (n * Z.of_nat k) * omega N (- Z.of_nat ((i + m) mod N * k))))%C; [ring|]. f_equal. rewrite <- omega_add.
    rewrite <- (omega_mod N (_ + _)), <- (omega_mod N (- Z.of_nat (i * k))) by auto. f_equal. rewrite !Nat2Z.inj_mul. rewrite Z_of_nat_mod by auto. rewrite Nat2Z.inj_add. unfold m. rewrite Z2Nat.id by (apply Z.mod_pos_bound; lia). rewrite Z.add_mod_idemp_r by lia.
    replace (n * Z.of_nat k + - ((Z.of_nat i + n) mod Z.of_nat N * Z.of_nat k))%Z with (n * Z.of_nat k - (Z.of_nat i + n) mod Z.of_nat N * Z.of_nat k)%Z by ring. rewrite Zminus_mod, Z.mul_mod_idemp_l, <- Zminus_mod by lia. f_equal. ring. }
  apply (f_equal fst) in Y. unfold y in Y. cbn in Y. lra.
Qed.
End Peak.

(** ** Spectra of embedded signals *)
Lemma csum_trunc : forall n m f, (n <= m)%nat -> (forall i, (n <= i < m)%nat -> f i = C0) -> csum m f = csum n f.
Proof. intros n m f H Hz. apply C_eq; cbn [fst snd csum]; apply bsum_trunc; auto; intros i Hi; now rewrite Hz. Qed.
Lemma dft_pad : forall N a s b k, (a + length s <= N)%nat -> dft N (fun j => RtoC (nth j (pad a s b) 0)) k = (omega N (- Z.of_nat (a * k)) * shat N s k)%C.
Proof.
  intros N a s b k H. unfold dft, shat. replace N with (a + (N - a))%nat at 1 by lia. rewrite csum_split. rewrite (csum_zero_ext a). 2: { intros i Hi. rewrite pad_nth, at_time_neg by lia. apply C_eq; cbn; ring. }
  unfold dft. rewrite (csum_trunc (N - a) N) by (try lia; intros i Hi; rewrite (nth_overflow s) by lia; apply C_eq; cbn; ring). rewrite <- csum_scal. transitivity (csum (N - a) (fun i => (RtoC (nth (a + i) (pad a s b) 0%R) * omega N (- Z.of_nat ((a + i) * k)))%C)); [ring|]. apply csum_ext. intros i Hi. rewrite pad_nth. replace (Z.of_nat (a + i) - Z.of_nat a)%Z with (Z.of_nat i) by lia. rewrite at_time_nat. replace (- Z.of_nat ((a + i) * k))%Z with (- Z.of_nat (a * k) + - Z.of_nat (i * k))%Z by lia. rewrite omega_add. ring.
Qed.
Lemma dft_scal : forall N g x k, dft N (fun j => RtoC (nth j (map (Rmult g) x) 0)) k = (RtoC g * dft N (fun j => RtoC (nth j x 0%R)) k)%C.
Proof. intros. unfold dft. rewrite <- csum_scal. apply csum_ext. intros j Hj. replace (nth j (map (Rmult g) x) 0) with (g * nth j x 0)%R; [rewrite RtoC_mul; ring|]. symmetry. replace 0 with (g * 0) at 1 by ring. apply (map_nth (Rmult g)). Qed.
Lemma Cabs_mul : forall a b, Cabs (a * b)%C = Cabs a * Cabs b.
Proof. intros. unfold Cabs. rewrite Cabs2_mul. apply sqrt_mult; apply Cabs2_nonneg. Qed.
Lemma Cabs_omega : forall n k, Cabs (omega n k) = 1.
Proof. intros. unfold Cabs. rewrite omega_abs2. apply sqrt_1. Qed.
Lemma Cabs_RtoC : forall g, Cabs (RtoC g) = Rabs g.
Proof. intros. unfold Cabs, Cabs2. cbn. rewrite Rmult_0_l, Rplus_0_r. apply sqrt_Rsqr_abs. Qed.
Lemma Cabs_pos : forall z, 0 <= Cabs z. Proof. intros. apply sqrt_pos. Qed.
Lemma Cabs_0 : forall z, Cabs z = 0 -> z = C0.
Proof. intros z H. apply Cabs2_zero. apply sqrt_eq_0; auto. apply Cabs2_nonneg. Qed.
Lemma Cabs_conj : forall z, Cabs (Conj z) = Cabs z.
Proof. intros. unfold Cabs, Cabs2. cbn. f_equal. ring. Qed.
Lemma Cabs_sqr : forall z, Cabs z * Cabs z = Cabs2 z.
Proof. intros. apply sqrt_sqrt. apply Cabs2_nonneg. Qed.
Definition heps (N : nat) (s : vec) : R := Rsum (map (fun k => Cabs (shat N s k)) (seq 0 (N / 2 + 1))) / INR (N / 2 + 1) * / 10 ^ 10.
Lemma half_nonzero : forall N s, ~ silent s -> (length s <= N)%nat -> exists k, (k <= N / 2)%nat /\ shat N s k <> C0.
Proof.
  intros N s Hs HN. destruct (not_silent s Hs) as (n & Hn & A).
  assert (D : forall m, (exists k, (k < m)%nat /\ shat N s k <> C0) \/ forall k, (k < m)%nat -> shat N s k = C0). { induction m as [|m [(k & Hk & B)|Z]]; [right; intros; lia|left; exists k; split; auto|]. destruct (C_eq_dec (shat N s m) C0) as [E|E]; [right|left; exists m; auto]. intros k Hk. destruct (Nat.eq_dec k m) as [->|]; auto. apply Z. lia. }
  destruct (D (S (N / 2))) as [(k & Hk & B)|Z]; [exists k; split; [lia|auto]|]. exfalso. apply A. rewrite <- (irfft_rfft N s n) by lia. rewrite (irfft_idft N _ (fun _ => C0)); [|lia| |].
  - unfold idft. rewrite csum_zero_ext by (intros; ring). cbn. ring.
  - intros k Hk. apply C_eq; cbn; ring.
  - intros k Hk. rewrite nth_rfft by auto. apply Z. lia.
Qed.
Lemma heps_pos : forall N s, ~ silent s -> (length s <= N)%nat -> 0 < heps N s.
Proof.
  intros N s Hs HN. destruct (half_nonzero N s Hs HN) as (k & Hk & A). unfold heps. rewrite <- bsum_Rsum. assert (0 < bsum (N / 2 + 1) (fun k => Cabs (shat N s k))).
  { eapply Rlt_le_trans; [|apply (bsum_ge_term _ (fun k => Cabs (shat N s k)) k); [lia|intros; apply Cabs_pos]]. destruct (Rle_lt_or_eq_dec _ _ (Cabs_pos (shat N s k))) as [|E]; auto. exfalso. apply A. now apply Cabs_0. }
  apply Rmult_lt_0_compat; [|apply Rinv_0_lt_compat, pow_lt; lra]. apply Rmult_lt_0_compat; auto. apply Rinv_0_lt_compat, lt_0_INR. lia.
Qed.
Lemma nth_map_R : forall {A} (f : A -> C) l k a, (k < length l)%nat -> nth k (map f l) C0 = f (nth k l a).
Proof. intros. now apply nth_map_in. Qed.
Lemma nth_scal : forall g (x : vec) j, nth j (map (Rmult g) x) 0 = g * nth j x 0.
Proof. intros. replace 0 with (g * 0) at 1 by ring. apply (map_nth (Rmult g)). Qed.
Lemma at_time_scal : forall g x t, at_time (map (Rmult g) x) t = g * at_time x t.
Proof. intros. unfold at_time. destruct (t <? 0)%Z; [ring|apply nth_scal]. Qed.
Lemma rfft_pad : forall N a s b g k, (a + length s <= N)%nat -> (k <= N / 2)%nat -> nth k (rfft N (pad a (map (Rmult g) s) b)) C0 = (RtoC g * (omega N (- Z.of_nat (a * k)) * shat N s k))%C.
Proof.
  intros N a s b g k HN Hk. rewrite nth_rfft by auto. rewrite <- (dft_pad N a s b k) by lia. rewrite <- dft_scal. apply dft_ext. intros i Hi. f_equal. rewrite nth_scal, !pad_nth. apply at_time_scal.
Qed.
(** Weights of one embedded, scaled signal: a positive real factor times its spectrum. *)
Lemma phat_pad : forall N a s b g, ~ silent s -> g <> 0 -> (a + length s <= N)%nat -> exists Y, phat_weight (rfft N (pad a (map (Rmult g) s) b)) = Some Y /\ length Y = (N / 2 + 1)%nat /\
  forall k, (k <= N / 2)%nat -> nth k Y C0 = (RtoC (g / Rabs g / (Cabs (shat N s k) + heps N s)) * (omega N (- Z.of_nat (a * k)) * shat N s k))%C.
Proof.
  intros N a s b g Hs Hg HN. set (X := rfft N _). assert (LX : length X = (N / 2 + 1)%nat) by apply rfft_length.
  assert (EX : forall k, (k <= N / 2)%nat -> nth k X C0 = (RtoC g * (omega N (- Z.of_nat (a * k)) * shat N s k))%C) by (intros; now apply rfft_pad).
  assert (AX : forall k, (k <= N / 2)%nat -> Cabs (nth k X C0) = Rabs g * Cabs (shat N s k)) by (intros k Hk; rewrite EX by auto; rewrite !Cabs_mul, Cabs_RtoC, Cabs_omega; ring).
  pose proof (heps_pos N s Hs ltac:(lia)) as He. pose proof (Rabs_pos_lt g Hg) as Hag.
  unfold phat_weight. rewrite LX. set (eps := Rsum (map Cabs X) / _ * _). assert (Ee : eps = Rabs g * heps N s).
  { unfold eps, heps. replace (Rsum (map Cabs X)) with (Rabs g * Rsum (map (fun k => Cabs (shat N s k)) (seq 0 (N / 2 + 1)))); [unfold Rdiv; ring|]. rewrite <- bsum_Rsum, <- bsum_scal, bsum_Rsum. f_equal. apply StftProofs.list_eq; [rewrite !map_length, seq_length; auto|]. intros i Hi. rewrite map_length, seq_length in Hi. rewrite nth_map_seq by auto. rewrite (nth_map_in Cabs X i C0) by lia. symmetry. apply AX. lia. }
  assert (Pz : forall z, 0 < Cabs z + eps) by (intros z; pose proof (Cabs_pos z); rewrite Ee; nra).
  exists (map (fun z => Cscal (/ (Cabs z + eps)) z) X). split; [|split].
  - rewrite (mapM_ext_in _ (fun z => Some (Cscal (/ (Cabs z + eps)) z))); [apply mapM_total|]. intros z _. destruct (Req_EM_T (Cabs z + eps) 0) as [E|]; auto. specialize (Pz z). lra.
  - now rewrite map_length.
  - intros k Hk. rewrite (nth_map_in _ X k C0) by lia. rewrite Cscal_RtoC, AX, EX, Ee by auto. rewrite <- Rmult_plus_distr_l. transitivity (RtoC (/ (Rabs g * (Cabs (shat N s k) + heps N s))) * RtoC g * (omega N (- Z.of_nat (a * k)) * shat N s k))%C; [ring|]. rewrite <- RtoC_mul. do 2 f_equal. pose proof (Cabs_pos (shat N s k)). field. split; lra.
Qed.
(** The correlation of two embedded copies, weighted or not, is the peak function around the shift. *)
Definition wt (phat : bool) (N : nat) (s : vec) (k : nat) : R := if phat then Cabs2 (shat N s k) * / ((Cabs (shat N s k) + heps N s) * (Cabs (shat N s k) + heps N s)) else Cabs2 (shat N s k).
Lemma corr_pad : forall a b c d s g phat, ~ silent s -> g <> 0 -> (2 <= c + length s + d)%nat ->
  let x1 := pad a (map (Rmult g) s) b in let x2 := pad c s d in let N := (length x1 + length x2 - 1)%nat in
  exists r, correlate x1 x2 1 phat = Some r /\ length r = N /\
  forall p, (p < N)%nat -> nth p r 0 = (if phat then g / Rabs g else g) / INR N * G N (wt phat N s) (Z.of_nat p - (Z.of_nat (length x2) - 1) - (Z.of_nat a - Z.of_nat c)).
Proof.
  intros a b c d s g phat Hs Hg H2 x1 x2 N. assert (Ls : (0 < length s)%nat) by (destruct (not_silent s Hs) as (n & Hn & _); lia).
  assert (L1 : length x1 = (a + length s + b)%nat) by (unfold x1; rewrite pad_length, map_length; auto). assert (L2 : length x2 = (c + length s + d)%nat) by apply pad_length.
  assert (Ex2 : x2 = pad c (map (Rmult 1) s) d). { unfold x2. do 2 f_equal. symmetry. rewrite <- (map_id s) at 2. apply map_ext. intros; ring. }
  set (kappa := if phat then g / Rabs g else g). set (H k := (RtoC (kappa * wt phat N s k) * omega N (- ((Z.of_nat a - Z.of_nat c) * Z.of_nat k)))%C).
  assert (Sp : exists Y1 Y2, (if phat then phat_weight (rfft N x1) else Some (rfft N x1)) = Some Y1 /\ (if phat then phat_weight (rfft N x2) else Some (rfft N x2)) = Some Y2 /\
    forall k, (k <= N / 2)%nat -> nth k (map2 (fun a b => (a * Conj b)%C) Y1 Y2) C0 = H k).
  { assert (Om : forall k, (omega N (- Z.of_nat (a * k)) * Conj (omega N (- Z.of_nat (c * k))))%C = omega N (- ((Z.of_nat a - Z.of_nat c) * Z.of_nat k))). { intros k. rewrite <- omega_opp, <- omega_add. f_equal. lia. }
    destruct phat.
    - destruct (phat_pad N a s b g Hs Hg) as (Y1 & E1 & LY1 & N1); [unfold N; lia|]. destruct (phat_pad N c s d 1 Hs) as (Y2 & E2 & LY2 & N2); [lra|unfold N; lia|]. fold x1 in E1. rewrite <- Ex2 in E2. exists Y1, Y2. split; auto. split; auto. intros k Hk. rewrite (map2_nth _ _ _ _ C0 C0) by lia. rewrite N1, N2 by auto. rewrite !Conj_mul, Conj_RtoC. unfold H. rewrite <- Om. set (z := shat N s k). set (e := Cabs z + heps N s). rewrite (Rabs_pos_eq 1) by lra.
      transitivity (RtoC (g / Rabs g / e) * RtoC (1 / 1 / e) * (z * Conj z) * (omega N (- Z.of_nat (a * k)) * Conj (omega N (- Z.of_nat (c * k)))))%C; [ring|]. rewrite Cmul_conj, <- !RtoC_mul. do 2 f_equal. unfold kappa, wt. fold z. fold e. assert (e <> 0) by (pose proof (heps_pos N s Hs ltac:(unfold N; lia)); pose proof (Cabs_pos z); unfold e; lra). pose proof (Rabs_no_R0 g Hg). field. auto.
    - exists (rfft N x1), (rfft N x2). split; auto. split; auto. intros k Hk. rewrite (map2_nth _ _ _ _ C0 C0); [|now rewrite !rfft_length|rewrite rfft_length; lia]. unfold x1. rewrite Ex2, !rfft_pad by (auto; unfold N; lia). rewrite !Conj_mul, Conj_RtoC. unfold H. rewrite <- Om. set (z := shat N s k). transitivity (RtoC g * RtoC 1 * (z * Conj z) * (omega N (- Z.of_nat (a * k)) * Conj (omega N (- Z.of_nat (c * k)))))%C; [ring|]. rewrite Cmul_conj, <- !RtoC_mul. do 2 f_equal. unfold kappa, wt. fold z. ring. }
  destruct Sp as (Y1 & Y2 & E1 & E2 & HY).
  assert (Hh : hermitian N H). { intros k Hk. unfold H. rewrite Conj_mul, Conj_RtoC. f_equal.
    - assert (Es : shat N s (N - k) = Conj (shat N s k)) by (unfold shat; now apply (dft_hermitian N (fun j => nth j s 0))). do 2 f_equal. unfold wt. rewrite Es, Cabs_conj. assert (Ec : Cabs2 (Conj (shat N s k)) = Cabs2 (shat N s k)) by (unfold Cabs2; cbn; ring). now rewrite Ec.
    - rewrite <- omega_opp. rewrite <- (omega_cycle N (- - _) (- (Z.of_nat a - Z.of_nat c))) by lia. f_equal. rewrite Nat2Z.inj_sub by lia. ring. }
  assert (Out : forall j, (j < N)%nat -> nth j (irfft N (map2 (fun a b => (a * Conj b)%C) Y1 Y2)) 0 = kappa / INR N * G N (wt phat N s) (Z.of_nat j - (Z.of_nat a - Z.of_nat c))).
  { intros j Hj. rewrite (irfft_idft N _ H) by auto. unfold idft, G. cbn [fst Cscal]. rewrite fst_csum. unfold Rdiv. rewrite (Rmult_comm kappa), Rmult_assoc. f_equal. rewrite <- bsum_scal. apply bsum_ext. intros k Hk. unfold H. transitivity (fst (RtoC (kappa * wt phat N s k) * (omega N (- ((Z.of_nat a - Z.of_nat c) * Z.of_nat k)) * omega N (Z.of_nat (j * k))))%C); [match goal with |- fst ?u = fst ?v => assert (u = v :> C) as ->; [ring|reflexivity] end|]. rewrite fst_RtoC_mul, <- omega_add, Rmult_assoc. do 4 f_equal. lia. }
  unfold correlate. fold N. rewrite E1, E2. cbn [bind]. rewrite Nat.mul_1_r, !Nat.mul_1_l. set (out := irfft N _) in *. assert (Lo : length out = N) by apply irfft_length. destruct (Nat.eqb_spec (length x2 - 1) 0); [lia|].
  eexists. split; [reflexivity|]. assert (Lr : length (skipn (length out - (length x2 - 1)) out ++ firstn (length x1) out) = N) by (rewrite app_length, skipn_length, firstn_length; unfold N in *; lia). split; [exact Lr|]. intros p Hp. rewrite Lo. assert (Lsk : length (skipn (N - (length x2 - 1)) out) = (length x2 - 1)%nat) by (rewrite skipn_length; unfold N in *; lia). fold kappa. destruct (Nat.lt_ge_cases p (length x2 - 1)) as [Hlt|Hge].
  - rewrite app_nth1 by lia. rewrite StftProofs.nth_skipn, Out by lia. f_equal. unfold G. apply bsum_ext. intros k Hk. do 2 f_equal. rewrite <- (omega_cycle N ((Z.of_nat p - _ - _) * _) (Z.of_nat k)) by lia. f_equal. nia.
  - rewrite app_nth2 by lia. rewrite StftProofs.nth_firstn by (unfold N in *; lia). rewrite Lsk, Out by (unfold N in *; lia). do 2 f_equal. lia.
Qed.
(** The estimated delay of a scaled and shifted copy is the shift, with and without phase weighting. *)
Theorem C65_tdoa : forall a b c d s g phat fs, ~ silent s -> g <> 0 -> (2 <= c + length s + d)%nat ->
  tdoa (pad a (map (Rmult g) s) b) (pad c s d) 1 phat fs = Some ((INR a - INR c) / fs).
Proof.
  intros a b c d s g phat fs Hs Hg H2. assert (Ls : (0 < length s)%nat) by (destruct (not_silent s Hs) as (n & Hn & _); lia). destruct (corr_pad a b c d s g phat Hs Hg H2) as (r & E & Lr & Nr). set (x1 := pad a _ b) in *. set (x2 := pad c s d) in *. set (N := (length x1 + length x2 - 1)%nat) in *.
  assert (L1 : length x1 = (a + length s + b)%nat) by (unfold x1; rewrite pad_length, map_length; auto). assert (L2 : length x2 = (c + length s + d)%nat) by apply pad_length.
  unfold tdoa. destruct (Nat.eqb_spec (length x1) 0); [lia|]. destruct (Nat.eqb_spec (length x2) 0); [lia|]. cbn [orb Nat.eqb]. rewrite E. f_equal. f_equal.
  set (p0 := (length x2 - 1 + a - c)%nat). assert (Hp0 : (p0 < N)%nat) by (unfold p0, N; lia).
  assert (Hw : forall k, (k < N)%nat -> 0 <= wt phat N s k /\ (wt phat N s k = 0 -> shat N s k = C0)).
  { intros k Hk. pose proof (heps_pos N s Hs ltac:(unfold N; lia)) as He. pose proof (Cabs_pos (shat N s k)) as Hc. unfold wt. destruct phat.
    - assert (Hi : 0 < / ((Cabs (shat N s k) + heps N s) * (Cabs (shat N s k) + heps N s))) by (apply Rinv_0_lt_compat, Rmult_lt_0_compat; lra). split; [apply Rmult_le_pos; [apply Cabs2_nonneg|lra]|]. intros Z. apply Rmult_integral in Z. destruct Z as [Z|Z]; [now apply Cabs2_zero|lra].
    - split; [apply Cabs2_nonneg|apply Cabs2_zero]. }
  assert (Am : argmax (map Rabs r) = p0).
  { apply argmax_unique; rewrite map_length, Lr; auto. intros m Hm Hne. rewrite (nth_map_in Rabs r m 0), (nth_map_in Rabs r p0 0) by lia. rewrite !Nr by auto. rewrite !Rabs_mult. replace (Z.of_nat p0 - (Z.of_nat (length x2) - 1) - (Z.of_nat a - Z.of_nat c))%Z with 0%Z by (unfold p0; lia). set (nn := (Z.of_nat m - _ - _)%Z).
    apply Rmult_lt_compat_l. { apply Rabs_pos_lt. apply Rmult_integral_contrapositive_currified; [|apply Rinv_neq_0_compat, not_0_INR; lia]. destruct phat; auto. apply Rmult_integral_contrapositive_currified; auto. apply Rinv_neq_0_compat. now apply Rabs_no_R0. }
    assert (Hn : (nn mod Z.of_nat N <> 0)%Z). { assert (nn <> 0)%Z by (unfold nn, p0 in *; lia). assert (- Z.of_nat N < nn < Z.of_nat N)%Z by (unfold nn, N in *; lia). destruct (Z.lt_ge_cases nn 0); [replace nn with (nn + Z.of_nat N + -1 * Z.of_nat N)%Z by ring; rewrite Z.mod_add by lia|]; rewrite Z.mod_small by lia; lia. }
    pose proof (peak_strict N s Hs ltac:(unfold N; lia) (wt phat N s) Hw nn 1 Hn (or_introl eq_refl)) as P1. pose proof (peak_strict N s Hs ltac:(unfold N; lia) (wt phat N s) Hw nn (-1) Hn (or_intror eq_refl)) as P2. rewrite (Rabs_pos_eq (G N (wt phat N s) 0)) by lra. apply Rabs_def1; lra. }
  rewrite Am. unfold p0. rewrite L2. rewrite minus_INR by lia. rewrite plus_INR. rewrite minus_INR by lia. cbn. field.
Qed.
Print Assumptions C65_tdoa.
Example C65_tdoa_case : tdoa [0; 0; -2; -6; 0] [1; 3; 0; 0] 1 true 1 = Some 2.
Proof. pose proof (C65_tdoa 2 1 0 2 [1; 3] (-2) true 1) as H. unfold pad in H. cbn -[tdoa] in H. replace (-2 * 1) with (-2) in H by ring. replace (-2 * 3) with (-6) in H by ring. rewrite H; [f_equal; lra|intros Z; specialize (Z 0%nat); cbn in Z; lra|lra|cbn; lia]. Qed.
(** Silence: two identical silent signals are reported as shifted by their length. *)
Theorem C65_silence_refuted : exists x, x <> [] /\ tdoa x x 1 true 1 <> Some 0.
Proof.
  exists [0; 0]. split; [congruence|]. unfold tdoa. cbn [length Nat.eqb orb]. replace (correlate [0; 0] [0; 0] 1 true) with (@None vec). - cbn. intros H. injection H as H. lra.
  - assert (Z : forall k, (k <= 3 / 2)%nat -> nth k (rfft 3 [0; 0]) C0 = C0). { intros k Hk. rewrite nth_rfft by auto. unfold dft. apply csum_zero_ext. intros j Hj. assert (nth j [0; 0] 0 = 0) as -> by (destruct j as [|[|[|]]]; reflexivity). apply C_eq; cbn; ring. }
    unfold correlate. cbn [length Nat.add Nat.sub]. assert (P : phat_weight (rfft 3 [0; 0]) = None); [|now rewrite P]. pose proof (Z 0%nat ltac:(cbn; lia)) as Z0. pose proof (Z 1%nat ltac:(cbn; lia)) as Z1. assert (LX : length (rfft 3 [0; 0]) = 2%nat) by apply rfft_length. destruct (rfft 3 [0; 0]) as [|z0 [|z1 [|]]]; try discriminate. cbn in Z0, Z1. subst z0 z1. unfold phat_weight. assert (A : Cabs C0 = 0) by (unfold Cabs, Cabs2; cbn; rewrite Rmult_0_l, Rplus_0_r; apply sqrt_0). cbn [map]. rewrite A. set (eps := Rsum _ / _ * _). assert (Ee : eps = 0) by (unfold eps, Rsum; cbn; unfold Rdiv; ring). cbn [mapM]. rewrite A, Ee. destruct (Req_EM_T (0 + 0) 0); [reflexivity|lra].
Qed.
Print Assumptions C65_silence_refuted.

(** ** Alignment *)
(** Moving a signal by [delay] samples into a buffer of the reference's length. *)
Lemma align_by_spec : forall R deg delay, (- Z.of_nat (length deg) <= delay <= Z.of_nat R)%Z -> exists sig, align_by R deg delay = Some sig /\ length sig = R /\
  forall n, (n < R)%nat -> nth n sig 0 = at_time deg (Z.of_nat n - delay).
Proof.
  intros R deg delay H. unfold align_by. set (D := length deg) in *. destruct (Z.leb_spec 0 delay) as [H0|H0].
  - set (len := Z.min (Z.of_nat D) (Z.of_nat R - delay)). assert (Hlen : (0 <= len)%Z) by (unfold len; lia). unfold slice_set, pyslice. rewrite repeat_length. fold D. unfold slice_bound. destruct (Z.ltb_spec delay 0); [lia|]. destruct (Z.ltb_spec (len + delay) 0); [lia|]. cbn [Z.ltb]. destruct (Z.ltb_spec len 0); [lia|]. change (0 <? 0)%Z with false. cbv iota. cbn [Z.to_nat Nat.min skipn]. rewrite Nat.sub_0_r.
    set (v := firstn _ deg). assert (Lv : length v = Z.to_nat len) by (unfold v; rewrite firstn_length; fold D; unfold len; lia). rewrite Lv. destruct (Nat.eqb_spec (Z.to_nat len) (Nat.min (Z.to_nat (len + delay)) R - Nat.min (Z.to_nat delay) R)) as [_|Hx]; [|exfalso; apply Hx; unfold len; lia].
    eexists. split; [reflexivity|]. split; [now rewrite map_length, seq_length|]. intros n Hn. rewrite nth_map_seq by auto. rewrite nth_repeat. unfold at_time. destruct (Z.ltb_spec (Z.of_nat n - delay) 0).
    + destruct (Nat.leb_spec (Nat.min (Z.to_nat delay) R) n); [lia|reflexivity].
    + destruct (Nat.leb_spec (Nat.min (Z.to_nat delay) R) n); [|lia]. cbn [andb]. replace (n - Nat.min (Z.to_nat delay) R)%nat with (Z.to_nat (Z.of_nat n - delay)) by lia. destruct (Nat.ltb_spec n (Nat.min (Z.to_nat (len + delay)) R)).
      * unfold v. rewrite StftProofs.nth_firstn; auto. unfold len in *. lia.
      * rewrite nth_overflow; auto. fold D. unfold len in *. lia.
  - set (len := Z.min (Z.of_nat D + delay) (Z.of_nat R)). assert (Hlen : (0 <= len)%Z) by (unfold len; lia). unfold slice_set, pyslice. rewrite repeat_length. fold D. unfold slice_bound. destruct (Z.ltb_spec (- delay) 0); [lia|]. destruct (Z.ltb_spec (- delay + len) 0); [lia|]. destruct (Z.ltb_spec len 0); [lia|]. change (0 <? 0)%Z with false. cbv iota. cbn [Z.to_nat Nat.min]. rewrite Nat.sub_0_r.
    set (v := firstn _ _). assert (Lv : length v = Z.to_nat len) by (unfold v; rewrite firstn_length, skipn_length; fold D; unfold len; lia). rewrite Lv. destruct (Nat.eqb_spec (Z.to_nat len) (Nat.min (Z.to_nat len) R)) as [_|Hx]; [|exfalso; apply Hx; unfold len; lia].
    eexists. split; [reflexivity|]. split; [now rewrite map_length, seq_length|]. intros n Hn. rewrite nth_map_seq by auto. rewrite nth_repeat, Nat.sub_0_r. unfold at_time. destruct (Z.ltb_spec (Z.of_nat n - delay) 0); [lia|]. cbn [Nat.leb andb]. destruct (Nat.ltb_spec n (Nat.min (Z.to_nat len) R)).
    + unfold v. rewrite StftProofs.nth_firstn by (unfold len in *; lia). rewrite StftProofs.nth_skipn. f_equal. lia.
    + rewrite nth_overflow; auto. fold D. unfold len in *. lia.
Qed.
Lemma pyint_trunc : forall x, pyint x = trunc x. Proof. reflexivity. Qed.
Lemma trunc_IZR : forall z, trunc (IZR z) = z.
Proof.
  assert (P : forall z, (0 <= z)%Z -> trunc (IZR z) = z). { intros z Hz. unfold trunc. apply IZR_le in Hz. destruct (Rle_dec 0 (IZR z)); [|lra]. apply Z.le_antisymm; [apply Int_part_le; lra|apply Int_part_ge; lra]. }
  intros z. destruct (Z.le_gt_cases 0 z); auto. replace (IZR z) with (- IZR (- z)) by (rewrite opp_IZR; ring). rewrite trunc_opp, P by lia. lia.
Qed.
Lemma insert_length : forall a l, length (insert a l) = S (length l).
Proof. induction l as [|b l IH]; cbn; auto. destruct (Rle_dec a b); cbn; auto. Qed.
Lemma insert_Forall : forall (P : R -> Prop) a l, P a -> Forall P l -> Forall P (insert a l).
Proof. intros P a l Ha. induction 1 as [|b l Hb Hl IH]; cbn; auto. destruct (Rle_dec a b); auto. Qed.
Lemma sort_length : forall l, length (sort l) = length l.
Proof. induction l as [|a l IH]; cbn; auto. fold (sort l). now rewrite insert_length, IH. Qed.
Lemma sort_Forall : forall (P : R -> Prop) l, Forall P l -> Forall P (sort l).
Proof. intros P l. induction 1 as [|a l Ha Hl IH]; cbn; auto. now apply insert_Forall. Qed.
Lemma median_bound : forall B l, l <> [] -> Forall (fun v => - B <= v <= B) l -> - B <= median l <= B.
Proof.
  intros B l Hl H. apply sort_Forall in H. assert (L : (0 < length (sort l))%nat) by (rewrite sort_length; destruct l; [congruence|cbn; lia]). unfold median. set (m := length (sort l)) in *. rewrite Forall_forall in H.
  assert (A1 := H (nth ((m - 1) / 2) (sort l) 0) ltac:(apply nth_In; fold m; pose proof (Nat.div_le_upper_bound (m - 1) 2 (m - 1) ltac:(lia) ltac:(lia)); lia)). assert (A2 := H (nth (m / 2) (sort l) 0) ltac:(apply nth_In; fold m; apply Nat.div_lt; lia)). lra.
Qed.
(** One block of two signals of the same length: the estimate is within the block. *)
Lemma tdoa_bound : forall x1 x2 phat, x1 <> [] -> length x1 = length x2 -> exists v, tdoa x1 x2 1 phat 1 = Some v /\ - (INR (length x1) - 1) <= v <= INR (length x1) - 1.
Proof.
  intros x1 x2 phat H1 HL. assert (L1 : (0 < length x1)%nat) by (destruct x1; [congruence|cbn; lia]). unfold tdoa. rewrite <- HL. destruct (Nat.eqb_spec (length x1) 0); [lia|]. cbn [orb Nat.eqb]. set (i := match correlate x1 x2 1 phat with Some r => argmax (map Rabs r) | None => 0%nat end). eexists. split; [reflexivity|].
  assert (Hi : (i <= 2 * (length x1 - 1))%nat).
  { unfold i. destruct (correlate x1 x2 1 phat) as [r|] eqn:E; [|lia]. unfold correlate in E. rewrite <- HL in E. destruct (if phat then _ else _) as [Y1|]; [|discriminate]. cbn [bind] in E. destruct (if phat then _ else _) as [Y2|]; [|discriminate]. cbn [bind] in E. apply Some_inj in E. rewrite Nat.mul_1_r, !Nat.mul_1_l in E. set (out := irfft _ _) in E. assert (Lo : length out = (length x1 + length x1 - 1)%nat) by apply irfft_length.
    destruct (Nat.eqb_spec (length x1 - 1) 0) as [E1|E1].
    - assert (length x1 = 1)%nat by lia. rewrite H in *. destruct out as [|o [|]]; try discriminate. subst r. cbn. destruct (Rlt_dec (Rabs o) (Rabs o)); [lra|lia].
    - assert (Lr : length r = (2 * (length x1 - 1) + 1)%nat) by (subst r; rewrite app_length, skipn_length, firstn_length; lia). pose proof (argmax_lt (map Rabs r)) as A. rewrite map_length, Lr in A. assert (argmax (map Rabs r) < 2 * (length x1 - 1) + 1)%nat; [apply A; destruct r; [cbn in Lr; lia|discriminate]|lia]. }
  apply le_INR in Hi. rewrite mult_INR, minus_INR in Hi by lia. pose proof (pos_INR i). cbn in *. split; lra.
Qed.
(** Both signals at least one block long: alignment always succeeds, returns a signal of the length of the
    reference, which is the degraded signal moved by less than a block. *)
Theorem C65_time_align : forall ref deg L, (0 < L)%nat -> (L <= length ref)%nat -> (L <= length deg)%nat -> exists delay sig, delay_estimation ref deg L = Some delay /\ (Z.abs delay < Z.of_nat L)%Z /\
  time_align ref deg L = Some sig /\ length sig = length ref /\ forall n, (n < length ref)%nat -> nth n sig 0 = at_time deg (Z.of_nat n - delay).
Proof.
  intros ref deg L HL Hr Hd. set (K := (Nat.min (length ref) (length deg) / L)%nat). assert (HK : (0 < K)%nat) by (unfold K; apply Nat.div_str_pos; lia). assert (HKL : (K * L <= Nat.min (length ref) (length deg))%nat) by (unfold K; rewrite Nat.mul_comm; apply Nat.mul_div_le; lia).
  assert (D : exists ds, mapM (fun k => tdoa (firstn L (skipn (k * L) ref)) (firstn L (skipn (k * L) deg)) 1 true 1) (seq 0 K) = Some ds /\ length ds = K /\ Forall (fun v => - (INR L - 1) <= v <= INR L - 1) ds).
  { assert (B : forall k, (k < K)%nat -> exists v, tdoa (firstn L (skipn (k * L) ref)) (firstn L (skipn (k * L) deg)) 1 true 1 = Some v /\ - (INR L - 1) <= v <= INR L - 1).
    { intros k Hk. assert (A : (k * L + L <= K * L)%nat) by nia. assert (La : length (firstn L (skipn (k * L) ref)) = L) by (rewrite firstn_length, skipn_length; lia). assert (Lb : length (firstn L (skipn (k * L) deg)) = L) by (rewrite firstn_length, skipn_length; lia). destruct (tdoa_bound (firstn L (skipn (k * L) ref)) (firstn L (skipn (k * L) deg)) true) as (v & E & Bv); [destruct (firstn L (skipn (k * L) ref)); [cbn in La; lia|congruence]|lia|]. rewrite La in Bv. eauto. }
    assert (Q : forall l, (forall k, In k l -> (k < K)%nat) -> exists ds, mapM (fun k => tdoa (firstn L (skipn (k * L) ref)) (firstn L (skipn (k * L) deg)) 1 true 1) l = Some ds /\ length ds = length l /\ Forall (fun v => - (INR L - 1) <= v <= INR L - 1) ds).
    { induction l as [|k l IH]; intros Hin; [exists []; auto|]. destruct (B k) as (v & E & Bv); [apply Hin; now left|]. destruct IH as (ds & E' & Ll & F); [intros; apply Hin; now right|]. exists (v :: ds). cbn [mapM]. rewrite E. cbn [bind]. rewrite E'. cbn. auto. }
    destruct (Q (seq 0 K)) as (ds & E & Ll & F); [intros k Hk; apply in_seq in Hk; lia|]. rewrite seq_length in Ll. eauto. }
  destruct D as (ds & E & Ld & F). assert (Hne : ds <> []) by (destruct ds; [cbn in Ld; lia|congruence]). pose proof (median_bound (INR L - 1) ds Hne F) as M. assert (IL : INR L - 1 = IZR (Z.of_nat L - 1)) by (rewrite minus_IZR, <- INR_IZR_INZ; reflexivity). rewrite IL in M. pose proof (trunc_bound (median ds) (Z.of_nat L - 1) ltac:(lia) ltac:(apply Rabs_le; lra)) as T.
  set (delay := pyint (median ds)). assert (Ed : delay_estimation ref deg L = Some delay). { unfold delay_estimation. destruct (Nat.eqb_spec L 0); [lia|]. fold K. destruct (Nat.eqb_spec K 0); [lia|]. rewrite E. reflexivity. }
  assert (Td : (- (Z.of_nat L - 1) <= delay <= Z.of_nat L - 1)%Z) by exact T. destruct (align_by_spec (length ref) deg delay ltac:(lia)) as (sig & Es & Ls & Ns). exists delay, sig. split; auto. split; [lia|]. split; auto. unfold time_align. rewrite Ed. exact Es.
Qed.
Print Assumptions C65_time_align.
(** Within one block, alignment recovers the position of the reference exactly. *)
Theorem C65_aligned : forall a b c d s g, ~ silent s -> g <> 0 -> (a + b = c + d)%nat -> (2 <= c + length s + d)%nat ->
  time_align (pad a s b) (pad c (map (Rmult g) s) d) (c + length s + d) = Some (pad a (map (Rmult g) s) b).
Proof.
  intros a b c d s g Hs Hg Heq H2. set (L := (c + length s + d)%nat) in *. assert (Lr : length (pad a s b) = L) by (rewrite pad_length; unfold L; lia). assert (Ld : length (pad c (map (Rmult g) s) d) = L) by (rewrite pad_length, map_length; unfold L; lia).
  assert (Ex : pad a s b = pad a (map (Rmult (/ g)) (map (Rmult g) s)) b). { f_equal. rewrite map_map. rewrite <- (map_id s) at 1. apply map_ext. intros x. field. auto. }
  assert (Hs' : ~ silent (map (Rmult g) s)). { intros Z. apply Hs. intros n. specialize (Z n). rewrite nth_scal in Z. apply Rmult_integral in Z. destruct Z; [contradiction|auto]. }
  assert (Ed : delay_estimation (pad a s b) (pad c (map (Rmult g) s) d) L = Some (Z.of_nat a - Z.of_nat c)%Z).
  { unfold delay_estimation. destruct (Nat.eqb_spec L 0); [lia|]. rewrite Lr, Ld, Nat.min_id, Nat.div_same by lia. cbn [Nat.eqb seq mapM Nat.mul skipn]. rewrite !firstn_all2 by lia. rewrite Ex. rewrite C65_tdoa; auto; [|apply Rinv_neq_0_compat; auto|rewrite map_length; unfold L in H2; lia]. cbn [bind]. unfold median. cbn [sort fold_right insert length nth Nat.sub Nat.div Nat.divmod fst]. f_equal. rewrite pyint_trunc. replace (((INR a - INR c) / 1 + (INR a - INR c) / 1) / 2) with (IZR (Z.of_nat a - Z.of_nat c)) by (rewrite minus_IZR, <- !INR_IZR_INZ; field). apply trunc_IZR. }
  unfold time_align. rewrite Ed. cbn [bind]. rewrite Lr. destruct (align_by_spec L (pad c (map (Rmult g) s) d) (Z.of_nat a - Z.of_nat c)) as (sig & Es & Ls & Ns); [rewrite Ld; unfold L in *; lia|]. rewrite Es. f_equal. apply StftProofs.list_eq; [rewrite Ls, pad_length, map_length; unfold L; lia|]. intros n Hn. rewrite Ns by lia. rewrite pad_at, pad_nth. f_equal. lia.
Qed.
Print Assumptions C65_aligned.
Example C65_aligned_case : time_align [1; 2; 0; 0] [0; 3; 6; 0] 4 = Some [3; 6; 0; 0].
Proof. pose proof (C65_aligned 0 2 1 1 [1; 2] 3) as H. unfold pad in H. cbn -[time_align] in H. replace (3 * 1) with 3 in H by ring. replace (3 * 2) with 6 in H by ring. apply H; [intros Z; specialize (Z 0%nat); cbn in Z; lra|lra|lia|lia]. Qed.
