(** C144: Wiener deconvolution. *)
From Coq Require Import List ZArith Lia Reals Lra Bool.
From Verif Require Import Base Vec Sum Cpx DftModel DftProofs AuxivaModel AuxivaProofs SyncModel StftSpec WaveletProofs GlRun LpcProps BandsProps UtilProps LocModel LocProofs LocProps BeamTdProps DeconvModel BaseProofs.
Import ListNotations.
Local Open Scope R_scope.

(** ** Specification *)
(** spectrum of a zero-padded signal *)
Definition spec (n : nat) (s : vec) (k : nat) : C := dft n (fun j => RtoC (nth j s 0)) k.
(** energies over the bins that are kept *)
Definition half_energy (n : nat) (s : vec) : R := bsum (n / 2 + 1) (fun k => Cabs2 (spec n s k)).
(** the noise to signal ratio of the recording, not less than 1e-7 above the noise *)
Definition ratio (n : nat) (y x : vec) (noise : R) : R := noise / Rmax (1 / 10000000) (half_energy n y / half_energy n x - noise).
(** the Wiener gain with the ratio scaled by [base ^ e] *)
Definition wiener_gain (n : nat) (y x : vec) (noise base e : R) (k : nat) : R :=
  let p := Cabs2 (spec n x k) / INR n in p / (p + Rpower base e * ratio n y x noise).
(** exponents from -P/2 to P *)
Definition exponent (P j : nat) : R := if Nat.eqb P 1 then - (1 / 2) else - INR P / 2 + 3 / 2 * INR P * (INR j / (INR P - 1)).
(** a combination of the candidate gains *)
Definition combined (n : nat) (y x : vec) (noise base : R) (P : nat) (v : nat -> R) (k : nat) : R := bsum P (fun j => v j * wiener_gain n y x noise base (exponent P j) k).
(** what the gains lose of the recording *)
Definition lost (n : nat) (y : vec) (gain : nat -> R) : R := bsum (n / 2 + 1) (fun k => (1 - gain k) ^ 2 * Cabs2 (spec n y k)).

(** ** Least squares exist *)
Lemma bsum_lin m P (f : nat -> nat -> R) (a r : nat -> R) : bsum m (fun k => bsum P (fun i => f k i * a i) * r k) = bsum P (fun i => a i * bsum m (fun k => f k i * r k)).
Proof. rewrite (bsum_ext m _ (fun k => bsum P (fun i => a i * (f k i * r k)))) by (intros k _; rewrite <- bsum_scal_r; apply bsum_ext; intros; ring). rewrite bsum_swap. apply bsum_ext. intros i _. now rewrite bsum_scal. Qed.
Lemma normal_exists m : forall P (f : nat -> nat -> R) y, exists u, forall j, (j < P)%nat -> bsum m (fun k => f k j * (y k - bsum P (fun i => f k i * u i))) = 0.
Proof.
  induction P as [|P IH]; intros f y; [exists (fun _ => 0); intros; lia|]. set (c := fun k => f k P). destruct (IH f c) as [a A]. destruct (IH f y) as [b B]. set (c' := fun k => c k - bsum P (fun i => f k i * a i)). set (y' := fun k => y k - bsum P (fun i => f k i * b i)).
  assert (CO : forall r, (forall j, (j < P)%nat -> bsum m (fun k => f k j * r k) = 0) -> bsum m (fun k => c k * r k) = bsum m (fun k => c' k * r k)).
  { intros r R0. rewrite (bsum_ext m _ (fun k => c' k * r k + bsum P (fun i => f k i * a i) * r k)) by (intros k _; unfold c'; ring). rewrite bsum_plus, bsum_lin. rewrite (bsum_zero_ext P) by (intros i Hi; rewrite R0 by auto; ring). ring. }
  set (D := bsum m (fun k => c' k * c' k)). set (t := if Req_EM_T D 0 then 0 else bsum m (fun k => c' k * y' k) / D). exists (fun i => if (i <? P)%nat then b i - t * a i else t).
  assert (RS : forall k, y k - bsum (S P) (fun i => f k i * (if (i <? P)%nat then b i - t * a i else t)) = y' k - t * c' k).
  { intros k. cbn [bsum]. rewrite Nat.ltb_irrefl. rewrite (bsum_ext P _ (fun i => f k i * b i + - t * (f k i * a i))) by (intros i Hi; destruct (Nat.ltb_spec i P); [ring|lia]). rewrite bsum_plus, bsum_scal. unfold y', c', c. ring. }
  intros j Hj. rewrite (bsum_ext m _ (fun k => f k j * (y' k - t * c' k))) by (intros k _; now rewrite RS).
  assert (O : forall j, (j < P)%nat -> bsum m (fun k => f k j * (y' k - t * c' k)) = 0). { intros i Hi. rewrite (bsum_ext m _ (fun k => f k i * y' k + - t * (f k i * c' k))) by (intros; ring). rewrite bsum_plus, bsum_scal. unfold y', c'. rewrite (A i Hi), (B i Hi). ring. }
  destruct (Nat.eq_dec j P) as [->|]; [|apply O; lia]. change (bsum m (fun k => c k * (y' k - t * c' k)) = 0). rewrite (CO (fun k => y' k - t * c' k)) by exact O. rewrite (bsum_ext m _ (fun k => c' k * y' k + - t * (c' k * c' k))) by (intros; ring). rewrite bsum_plus, bsum_scal. fold D. unfold t. destruct (Req_EM_T D 0) as [Z|Z]; [|field; auto].
  rewrite Z. rewrite (bsum_zero_ext m); [ring|]. intros k Hk. assert (Q : c' k * c' k = 0) by (apply (AuxivaProofs.bsum_zero_each m (fun k => c' k * c' k)); auto; intros; nra). assert (Q' : c' k = 0) by nra. rewrite Q'. ring.
Qed.
Lemma ls_exists m P (f : nat -> nat -> R) y : exists u, forall v, bsum m (fun k => (y k - bsum P (fun i => f k i * u i)) ^ 2) <= bsum m (fun k => (y k - bsum P (fun i => f k i * v i)) ^ 2).
Proof.
  destruct (normal_exists m P f y) as [u U]. exists u. intros v. set (r := fun k => y k - bsum P (fun i => f k i * u i)). set (d := fun i => u i - v i).
  rewrite (bsum_ext m (fun k => (y k - bsum P (fun i => f k i * v i)) ^ 2) (fun k => r k ^ 2 + (2 * (bsum P (fun i => f k i * d i) * r k) + bsum P (fun i => f k i * d i) ^ 2))).
  - rewrite !bsum_plus, bsum_scal, bsum_lin. rewrite (bsum_zero_ext P) by (intros i Hi; fold r in U; rewrite (U i Hi) || (unfold r; rewrite (U i Hi)); ring). assert (0 <= bsum m (fun k => bsum P (fun i => f k i * d i) ^ 2)) by (apply bsum_nonneg; intros; nra). unfold r in *. lra.
  - intros k _. unfold d. rewrite (bsum_ext P (fun i => f k i * (u i - v i)) (fun i => f k i * u i + -1 * (f k i * v i))) by (intros; ring). rewrite bsum_plus, bsum_scal. unfold r. ring.
Qed.
(** ** The candidates *)
Lemma Cabs_mm z : Cabs z * Cabs z = Cabs2 z.
Proof. unfold Cabs. apply sqrt_sqrt, Cabs2_nonneg. Qed.
Section Gains.
Variables (m P : nat) (g : nat -> nat -> R) (Y : nat -> C).
Lemma residual k (v : nat -> C) : Cabs2 (Y k - csum P (fun j => Cscal (g k j) (Y k) * v j))%C = Cabs2 (Y k) * ((1 - bsum P (fun j => g k j * fst (v j))) ^ 2 + bsum P (fun j => g k j * snd (v j)) ^ 2).
Proof.
  assert (E : csum P (fun j => Cscal (g k j) (Y k) * v j)%C = (Y k * (bsum P (fun j => g k j * fst (v j))%R, bsum P (fun j => g k j * snd (v j))%R))%C).
  { rewrite (csum_ext P _ (fun j => (Y k * (g k j * fst (v j), g k j * snd (v j))%R)%C)) by (intros j _; apply C_eq; cbn; ring). rewrite csum_scal. f_equal. }
  rewrite E. destruct (Y k) as [a b]. unfold Cabs2. cbn. ring.
Qed.
Lemma ls_real : exists w, least_squares m P (fun k j => Cscal (g k j) (Y k)) Y w.
Proof.
  destruct (ls_exists m P (fun k j => Cabs (Y k) * g k j) (fun k => Cabs (Y k))) as [u U]. exists (fun j => RtoC (u j)). intros v. rewrite (bsum_ext m _ (fun k => (Cabs (Y k) - bsum P (fun i => Cabs (Y k) * g k i * u i)) ^ 2)).
  - apply Rle_trans with (1 := U (fun j => fst (v j))). apply bsum_le. intros k Hk. rewrite residual. rewrite (bsum_ext P _ (fun i => Cabs (Y k) * (g k i * fst (v i)))) by (intros; ring). rewrite bsum_scal. pose proof (Cabs_mm (Y k)) as Q. pose proof (Cabs2_nonneg (Y k)). set (B := bsum P (fun j => g k j * fst (v j))). set (D := bsum P (fun j => g k j * snd (v j))). replace ((Cabs (Y k) - Cabs (Y k) * B) ^ 2) with (Cabs (Y k) * Cabs (Y k) * (1 - B) ^ 2) by ring. rewrite Q. assert (0 <= Cabs2 (Y k) * D ^ 2) by (apply Rmult_le_pos; [auto|apply pow2_ge_0]). nra.
  - intros k _. rewrite residual. cbn [fst snd RtoC]. rewrite (bsum_zero_ext P (fun j => g k j * 0)) by (intros; ring). rewrite (bsum_ext P (fun i => Cabs (Y k) * g k i * u i) (fun i => Cabs (Y k) * (g k i * u i))) by (intros; ring). rewrite bsum_scal. rewrite <- Cabs_mm. ring.
Qed.
Lemma ls_gains w : least_squares m P (fun k j => Cscal (g k j) (Y k)) Y w ->
  (forall k, (k < m)%nat -> csum P (fun j => Cscal (g k j) (Y k) * w j)%C = Cscal (bsum P (fun j => fst (w j) * g k j)) (Y k)) /\
  forall u, bsum m (fun k => (1 - bsum P (fun j => fst (w j) * g k j)) ^ 2 * Cabs2 (Y k)) <= bsum m (fun k => (1 - bsum P (fun j => u j * g k j)) ^ 2 * Cabs2 (Y k)).
Proof.
  intros L. assert (CM : forall (u : nat -> R) k, bsum P (fun j => u j * g k j) = bsum P (fun j => g k j * u j)) by (intros; apply bsum_ext; intros; ring).
  assert (RE : forall u : nat -> R, bsum m (fun k => Cabs2 (Y k - csum P (fun j => Cscal (g k j) (Y k) * RtoC (u j)))%C) = bsum m (fun k => (1 - bsum P (fun j => u j * g k j)) ^ 2 * Cabs2 (Y k))).
  { intros u. apply bsum_ext. intros k _. rewrite residual. cbn [fst snd RtoC]. rewrite (bsum_zero_ext P (fun j => g k j * 0)) by (intros; ring). rewrite CM. ring. }
  assert (SP : bsum m (fun k => Cabs2 (Y k - csum P (fun j => Cscal (g k j) (Y k) * w j))%C) = bsum m (fun k => (1 - bsum P (fun j => fst (w j) * g k j)) ^ 2 * Cabs2 (Y k)) + bsum m (fun k => Cabs2 (Y k) * bsum P (fun j => g k j * snd (w j)) ^ 2)).
  { rewrite <- bsum_plus. apply bsum_ext. intros k _. rewrite residual, CM. ring. }
  assert (NN : 0 <= bsum m (fun k => Cabs2 (Y k) * bsum P (fun j => g k j * snd (w j)) ^ 2)) by (apply bsum_nonneg; intros; apply Rmult_le_pos; [apply Cabs2_nonneg|apply pow2_ge_0]).
  split.
  - pose proof (L (fun j => RtoC (fst (w j)))) as Q. cbv beta in Q. rewrite (RE (fun j => fst (w j))), SP in Q. assert (Z : bsum m (fun k => Cabs2 (Y k) * bsum P (fun j => g k j * snd (w j)) ^ 2) = 0) by lra. intros k Hk. pose proof (AuxivaProofs.bsum_zero_each m _ (fun k => Rmult_le_pos _ _ (Cabs2_nonneg (Y k)) (pow2_ge_0 _)) Z k Hk) as Zk. cbv beta in Zk.
    rewrite (csum_ext P _ (fun j => (Y k * (g k j * fst (w j), g k j * snd (w j))%R)%C)) by (intros j _; apply C_eq; cbn; ring). rewrite csum_scal. assert (E : csum P (fun j => (g k j * fst (w j), g k j * snd (w j))) = (bsum P (fun j => g k j * fst (w j)), bsum P (fun j => g k j * snd (w j)))) by reflexivity. rewrite E, CM. apply Rmult_integral in Zk. destruct Zk as [Zk|Zk].
    + apply Cabs2_zero in Zk. rewrite Zk. apply C_eq; cbn; ring.
    + assert (Zs : bsum P (fun j => g k j * snd (w j)) = 0) by nra. rewrite Zs. apply C_eq; cbn; ring.
  - intros u. pose proof (L (fun j => RtoC (u j))) as Q. cbv beta in Q. rewrite RE, SP in Q. lra.
Qed.
End Gains.
Lemma Cabs2_Cscal k z : Cabs2 (Cscal k z) = k * k * Cabs2 z.
Proof. unfold Cabs2. cbn. ring. Qed.
Lemma nth_map_in {A B} (f : A -> B) l i a b : (i < length l)%nat -> nth i (map f l) b = f (nth i l a).
Proof. intros. rewrite (nth_indep _ b (f a)) by now rewrite map_length. apply map_nth. Qed.
Lemma snd_quot c a b : snd a = 0 -> snd b = 0 -> snd (Cscal c (Cdiv a b)) = 0.
Proof. destruct a as [a a'], b as [b b']. cbn. intros -> ->. unfold Rdiv. ring. Qed.
Section Run.
Variables (y x : vec) (noise base : R) (P : nat).
Let n := fft_len (length y) (length x).
Hypothesis Hn : (0 < n)%nat.
Hypothesis Hx : forall k, (k <= n / 2)%nat -> spec n x k <> C0.
Let kap := / sqrt (INR n).
Let Y := map (Cscal kap) (rfft n y).
Let X := map (Cscal kap) (rfft n x).
Lemma kap2 : kap * kap = / INR n.
Proof. unfold kap. rewrite <- Rinv_mult. rewrite sqrt_sqrt by apply pos_INR. reflexivity. Qed.
Lemma kap_pos : 0 < kap.
Proof. apply sqrt_INR_pos, Hn. Qed.
Lemma nth_Y s k : (k <= n / 2)%nat -> nth k (map (Cscal kap) (rfft n s)) C0 = Cscal kap (spec n s k).
Proof. intros Hk. rewrite (nth_map_in _ (rfft n s) k C0) by (rewrite rfft_length; lia). now rewrite nth_rfft. Qed.
Lemma norm2_Y s : norm2 (map (Cscal kap) (rfft n s)) = half_energy n s / INR n.
Proof.
  unfold norm2, half_energy, Rdiv. rewrite <- bsum_scal_r. rewrite map_map. unfold rfft. rewrite map_map. generalize (n / 2 + 1)%nat as m. intros m. induction m as [|m IH]; [reflexivity|]. rewrite seq_S, map_app, Rsum_app, IH. cbn [bsum map Rsum fold_right plus]. rewrite Cabs2_Cscal, kap2. unfold spec. ring.
Qed.
Lemma energy_x : 0 < half_energy n x.
Proof.
  unfold half_energy. rewrite Nat.add_1_r. cbn [bsum]. assert (0 <= bsum (n / 2) (fun k => Cabs2 (spec n x k))) by (apply bsum_nonneg; intros; apply Cabs2_nonneg). pose proof (Cabs2_nonneg (spec n x (n / 2))). assert (Cabs2 (spec n x (n / 2)) <> 0) by (intros Q; apply (Hx (n / 2)%nat); [lia|now apply Cabs2_zero]). lra.
Qed.
Lemma gain_eq k j : (k <= n / 2)%nat -> gain (nth k X C0) (inv_snr Y X noise base P j) = wiener_gain n y x noise base (exponent P j) k.
Proof.
  intros Hk. unfold gain, wiener_gain, X, Y. rewrite nth_Y by auto. rewrite Cabs2_Cscal, kap2. unfold inv_snr, ratio. rewrite !norm2_Y. assert (Np : INR n <> 0) by (apply not_0_INR; lia). pose proof energy_x.
  replace (half_energy n y / INR n / (half_energy n x / INR n)) with (half_energy n y / half_energy n x) by (field; split; lra || auto). replace (divider base P j) with (Rpower base (exponent P j)).
  - cbv zeta. replace (/ INR n * Cabs2 (spec n x k)) with (Cabs2 (spec n x k) / INR n) by (unfold Rdiv; ring). unfold Rdiv. rewrite !Rmult_assoc. reflexivity.
  - unfold divider, exponent. f_equal. destruct (Nat.eqb_spec P 1) as [->|]; [cbn; field|]. field. intros Q. apply n0, INR_eq. cbn. lra.
Qed.
Lemma no_zero : existsb (fun z => if C_eq_dec z C0 then true else false) X = false.
Proof.
  apply not_true_iff_false. intros T. apply existsb_exists in T. destruct T as (z & Hz & T). unfold X in Hz. apply (In_nth _ _ C0) in Hz. destruct Hz as (k & Hk & E). rewrite map_length, rfft_length in Hk. rewrite nth_Y in E by lia. destruct (C_eq_dec z C0) as [Q|]; [|discriminate]. subst z. apply (Cscal_nz kap (spec n x k)); auto; [pose proof kap_pos; lra|apply Hx; lia].
Qed.
(** the spectrum of the result *)
Lemma run_spec len res : wiener_deconvolve y x len noise P base res -> exists h v, res = Some (upto h (match len with Some l => l | None => Z.of_nat n end)) /\ length h = n /\
  (forall k, (k <= n / 2)%nat -> spec n h k = Cscal (combined n y x noise base P v k) (Cdiv (spec n y k) (spec n x k))) /\ forall u, lost n y (combined n y x noise base P v) <= lost n y (combined n y x noise base P u).
Proof.
  intros H. unfold wiener_deconvolve in H. cbv zeta in H. fold n in H. destruct (Nat.eqb_spec n 0); [lia|]. fold kap in H. fold Y X in H. rewrite no_zero in H. destruct H as (w & L & E). set (g := fun k j => gain (nth k X C0) (inv_snr Y X noise base P j)) in *. destruct (ls_gains (n / 2 + 1) P g (fun k => nth k Y C0) w L) as [A B].
  match type of E with _ = Some (upto (irfft n ?HH) _) => set (HS := HH) in * end. exists (irfft n HS), (fun j => fst (w j)). split; [exact E|]. split; [apply irfft_length|].
  assert (CG : forall u k, (k <= n / 2)%nat -> bsum P (fun j => u j * g k j) = combined n y x noise base P u k) by (intros u k Hk; apply bsum_ext; intros j _; unfold g; now rewrite gain_eq).
  assert (NH : forall k, (k <= n / 2)%nat -> nth k HS C0 = Cscal (combined n y x noise base P (fun j => fst (w j)) k) (Cdiv (spec n y k) (spec n x k))).
  { intros k Hk. unfold HS. rewrite (nth_map_in _ (seq 0 (n / 2 + 1)) k 0%nat) by (rewrite seq_length; lia). rewrite seq_nth by lia. cbn [plus]. rewrite (csum_ext P _ (fun j => (Cscal (g k j) (nth k Y C0) * w j) * Cdiv C1 (nth k X C0))%C) by (intros j _; unfold g, Cdiv; apply C_eq; cbn; unfold Rdiv; ring). rewrite csum_scal_r, A, CG by lia. unfold Y, X. rewrite !nth_Y by auto. set (c := combined _ _ _ _ _ _ _ _). rewrite <- (Cdiv_scal kap (spec n y k) (spec n x k)); [|pose proof kap_pos; lra|now apply Hx]. unfold Cdiv. apply C_eq; cbn; unfold Rdiv; ring. }
  split.
  - intros k Hk. unfold spec at 1. rewrite rfft_irfft; auto; [apply fft_len_even| |].
    + rewrite NH by lia. apply snd_quot; apply dft_0_real.
    + rewrite NH by lia. apply snd_quot; [apply (sp_half_real n y Hn)|apply (sp_half_real n x Hn)]; apply fft_len_even.
  - intros u. specialize (B u). unfold lost. assert (Z : forall v, bsum (n / 2 + 1) (fun k => (1 - bsum P (fun j => v j * g k j)) ^ 2 * Cabs2 (nth k Y C0)) = / INR n * bsum (n / 2 + 1) (fun k => (1 - combined n y x noise base P v k) ^ 2 * Cabs2 (spec n y k))).
    { intros v. rewrite <- bsum_scal. apply bsum_ext. intros k Hk. rewrite CG by lia. unfold Y. rewrite nth_Y by lia. rewrite Cabs2_Cscal, kap2. ring. }
    rewrite (Z (fun j => fst (w j))), (Z u) in B. apply Rmult_le_reg_l with (2 := B). apply Rinv_0_lt_compat, lt_0_INR. lia.
Qed.
Lemma run_exists len : exists res, wiener_deconvolve y x len noise P base (Some res).
Proof.
  unfold wiener_deconvolve. cbv zeta. fold n. destruct (Nat.eqb_spec n 0); [lia|]. fold kap. fold Y X. rewrite no_zero. destruct (ls_real (n / 2 + 1) P (fun k j => gain (nth k X C0) (inv_snr Y X noise base P j)) (fun k => nth k Y C0)) as [w W]. eexists. exists w. split; [exact W|reflexivity].
Qed.
(** a candidate with the same gain everywhere *)
Lemma run_flat v j g : (j < P)%nat -> g <> 0 -> (forall k, (k <= n / 2)%nat -> wiener_gain n y x noise base (exponent P j) k = g) ->
  (forall u, lost n y (combined n y x noise base P v) <= lost n y (combined n y x noise base P u)) ->
  forall k, (k <= n / 2)%nat -> Cscal (combined n y x noise base P v k) (Cdiv (spec n y k) (spec n x k)) = Cdiv (spec n y k) (spec n x k).
Proof.
  intros Hj Hg Hc B k Hk. set (u := fun i => if Nat.eq_dec i j then / g else 0). assert (U : lost n y (combined n y x noise base P u) = 0).
  { apply bsum_zero_ext. intros i Hi. replace (combined n y x noise base P u i) with 1; [ring|]. unfold combined. rewrite (bsum_delta P j); [|exact Hj|intros q _ Hq; unfold u; destruct (Nat.eq_dec q j); [contradiction|ring]]. unfold u. destruct (Nat.eq_dec j j); [|contradiction]. rewrite Hc by lia. now rewrite Rinv_l. }
  assert (NN : forall i, 0 <= (1 - combined n y x noise base P v i) ^ 2 * Cabs2 (spec n y i)) by (intros i; apply Rmult_le_pos; [apply pow2_ge_0|apply Cabs2_nonneg]).
  assert (Z : lost n y (combined n y x noise base P v) = 0) by (apply Rle_antisym; [rewrite <- U; apply B|apply bsum_nonneg; intros; apply NN]).
  pose proof (AuxivaProofs.bsum_zero_each _ _ NN Z k ltac:(lia)) as Q. cbv beta in Q. apply Rmult_integral in Q. destruct Q as [Q|Q].
  - replace (combined n y x noise base P v k) with 1 by nra. apply C_eq; cbn; ring.
  - apply Cabs2_zero in Q. rewrite Q. unfold Cdiv. apply C_eq; cbn; unfold Rdiv; ring.
Qed.
End Run.
(** A test signal whose spectrum vanishes nowhere: there is a result, and its spectrum is the quotient of the spectra of recording and test
    signal times real gains.  The gains are the combination of Wiener gains that loses least of the recording. *)
Theorem C144_wiener : forall y x noise base P, let n := fft_len (length y) (length x) in
  (0 < n)%nat -> (forall k, (k <= n / 2)%nat -> spec n x k <> C0) -> 0 <= noise -> 0 < base -> (exists h, wiener_deconvolve y x None noise P base (Some h)) /\
  forall h, wiener_deconvolve y x None noise P base (Some h) -> length h = n /\ exists v, let rho := combined n y x noise base P v in
    (forall k, (k <= n / 2)%nat -> spec n h k = Cscal (rho k) (Cdiv (spec n y k) (spec n x k))) /\ forall u, lost n y rho <= lost n y (combined n y x noise base P u).
Proof.
  intros y x noise base P n Hn Hx _ _. split; [now apply run_exists|]. intros h H. destruct (run_spec y x noise base P Hn Hx None (Some h) H) as (h0 & v & E & L & A & B). fold n in E, L, A, B. assert (h = h0). { injection E as ->. unfold upto. destruct (Z.leb_spec 0 (Z.of_nat n)); [|lia]. rewrite Nat2Z.id. now apply firstn_all2; lia. } subst h0. split; [exact L|]. exists v. split; auto.
Qed.
Print Assumptions C144_wiener.

(** A bin where the test signal vanishes, or no samples at all: no result. *)
Theorem C144_undefined : forall y x len noise base P res, let n := fft_len (length y) (length x) in
  n = 0%nat \/ (exists k, (k <= n / 2)%nat /\ spec n x k = C0) -> wiener_deconvolve y x len noise P base res -> res = None.
Proof.
  intros y x len noise base P res n H W. unfold wiener_deconvolve in W. cbv zeta in W. fold n in W. destruct (Nat.eqb_spec n 0) as [|Hn]; [exact W|]. destruct H as [H|(k & Hk & Z)]; [contradiction|].
  match type of W with (if ?b then _ else _) => assert (T : b = true) end; [|now rewrite T in W].
  apply existsb_exists. exists C0. split; [|destruct (C_eq_dec C0 C0); auto]. replace C0 with (nth k (map (Cscal (/ sqrt (INR n))) (rfft n x)) C0); [apply nth_In; rewrite map_length, rfft_length; lia|].
  rewrite (nth_map_in _ (rfft n x) k C0) by (rewrite rfft_length; lia). rewrite nth_rfft by auto. fold (spec n x k). rewrite Z. apply C_eq; cbn; ring.
Qed.
Print Assumptions C144_undefined.
(** Without noise, or for a test signal with a flat spectrum: the noise variance and the grid have no effect; the result is the plain
    quotient of the spectra. *)
Lemma ratio_nonneg n y x noise : 0 <= noise -> 0 <= ratio n y x noise.
Proof. intros. unfold ratio. apply Rmult_le_pos; auto. left. apply Rinv_0_lt_compat. pose proof (Rmax_l (1 / 10000000) (half_energy n y / half_energy n x - noise)). lra. Qed.
Lemma plain_gain y x noise base P v : let n := fft_len (length y) (length x) in
  (0 < n)%nat -> (forall k, (k <= n / 2)%nat -> spec n x k <> C0) -> 0 <= noise -> 0 < base -> (0 < P)%nat ->
  noise = 0 \/ (exists e, forall k, (k <= n / 2)%nat -> Cabs2 (spec n x k) = e) ->
  (forall u, lost n y (combined n y x noise base P v) <= lost n y (combined n y x noise base P u)) ->
  forall k, (k <= n / 2)%nat -> Cscal (combined n y x noise base P v k) (Cdiv (spec n y k) (spec n x k)) = Cdiv (spec n y k) (spec n x k).
Proof.
  intros n Hn Hx Hno Hb HP F B k Hk.
  assert (Pos : forall i, (i <= n / 2)%nat -> 0 < Cabs2 (spec n x i) / INR n). { intros i Hi. apply Rmult_lt_0_compat; [|apply Rinv_0_lt_compat, lt_0_INR; lia]. pose proof (Cabs2_nonneg (spec n x i)). assert (Cabs2 (spec n x i) <> 0) by (intros Z; apply (Hx i Hi); now apply Cabs2_zero). lra. }
  apply run_flat with (j := 0%nat) (g := wiener_gain n y x noise base (exponent P 0) 0); auto.
  - unfold wiener_gain. cbv zeta. pose proof (Pos 0%nat ltac:(lia)) as P0. pose proof (ratio_nonneg n y x noise Hno). assert (0 < Rpower base (exponent P 0)) by apply exp_pos. assert (0 <= Rpower base (exponent P 0) * ratio n y x noise) by (apply Rmult_le_pos; lra). apply Rmult_integral_contrapositive_currified; [lra|]. apply Rinv_neq_0_compat. lra.
  - intros i Hi. fold n in Hi. fold n. unfold wiener_gain. cbv zeta. destruct F as [F|[e F]].
    + unfold ratio. rewrite F. pose proof (Pos i Hi). pose proof (Pos 0%nat ltac:(lia)). unfold Rdiv. rewrite !Rmult_0_l, !Rmult_0_r, !Rplus_0_r. rewrite !Rinv_r; auto; unfold Rdiv in *; lra.
    + now rewrite (F i Hi), (F 0%nat ltac:(lia)).
Qed.
Theorem C144_plain : forall y x noise base P h, let n := fft_len (length y) (length x) in
  (0 < n)%nat -> (forall k, (k <= n / 2)%nat -> spec n x k <> C0) -> 0 <= noise -> 0 < base -> (0 < P)%nat ->
  noise = 0 \/ (exists e, forall k, (k <= n / 2)%nat -> Cabs2 (spec n x k) = e) ->
  wiener_deconvolve y x None noise P base (Some h) -> length h = n /\ forall k, (k <= n / 2)%nat -> spec n h k = Cdiv (spec n y k) (spec n x k).
Proof.
  intros y x noise base P h n Hn Hx Hno Hb HP F W. destruct (C144_wiener y x noise base P Hn Hx Hno Hb) as [_ Q]. destruct (Q h W) as (L & v & A & B). fold n in L, A, B. split; [exact L|]. intros k Hk. rewrite A by auto. now apply plain_gain.
Qed.
Print Assumptions C144_plain.
(** So a noise-free recording that holds the whole response gives the response exactly, up to the length asked for. *)
Theorem C144_recover : forall y x h len base P noise r, let n := fft_len (length y) (length x) in
  (0 < length x)%nat -> (length x + length h <= length y + 1)%nat -> (forall t, nth t y 0 = convolution x h t) ->
  (0 < n)%nat -> (forall k, (k <= n / 2)%nat -> spec n x k <> C0) -> 0 <= noise -> 0 < base -> (0 < P)%nat ->
  noise = 0 \/ (exists e, forall k, (k <= n / 2)%nat -> Cabs2 (spec n x k) = e) ->
  wiener_deconvolve y x len noise P base (Some r) ->
  length r = (match len with None => n | Some l => if (0 <=? l)%Z then Nat.min (Z.to_nat l) n else n - Z.to_nat (- l) end)%nat /\
  forall t, (t < length r)%nat -> nth t r 0 = nth t h 0.
Proof.
  intros y x h len base P noise r n Hl Hl2 Hy Hn Hx Hno Hb HP F W. destruct (run_spec y x noise base P Hn Hx len (Some r) W) as (h0 & v & E & L & A & B). fold n in E, L, A, B. set (l := match len with Some l => l | None => Z.of_nat n end) in *. assert (Er : r = upto h0 l) by congruence. clear E. subst r.
  assert (Y : forall k, sp n y k = (sp n x k * sp n h k)%C).
  { intros k. unfold sp at 3. rewrite <- (sp_circ n x (fun j => nth j h 0)) by auto. unfold sp. apply dft_ext. intros j Hj. f_equal. rewrite Hy. symmetry. apply (circular y); auto. apply fft_len_ge. }
  assert (Q : forall k, (k <= n / 2)%nat -> nth k (rfft n h0) C0 = nth k (rfft n h) C0).
  { intros k Hk. rewrite !nth_rfft by auto. change (spec n h0 k = spec n h k). rewrite A by auto. etransitivity; [apply (plain_gain y x noise base P v); auto|]. fold n. change (spec n y k) with (sp n y k). rewrite Y. change (sp n x k) with (spec n x k). change (sp n h k) with (spec n h k). pose proof (Hx k Hk) as Nz.
    assert (Nz2 : Cabs2 (spec n x k) <> 0) by (intros Z; apply Nz; now apply Cabs2_zero). unfold Cdiv. unfold Cabs2 in *. destruct (spec n x k) as [a b], (spec n h k) as [a' b']. cbn in *. apply C_eq; cbn; field; auto. }
  assert (R : forall j, (j < n)%nat -> nth j h0 0 = nth j h 0).
  { intros j Hj. rewrite <- (irfft_rfft n h j Hj), <- (irfft_rfft n h0 j Hj). f_equal. f_equal. apply nth_ext with (d := C0) (d' := C0); [now rewrite !rfft_length|]. intros k Hk. rewrite rfft_length in Hk. apply Q. lia. }
  unfold upto. assert (LL : length (if (0 <=? l)%Z then firstn (Z.to_nat l) h0 else firstn (length h0 - Z.to_nat (- l)) h0) = (if (0 <=? l)%Z then Nat.min (Z.to_nat l) n else n - Z.to_nat (- l))%nat) by (destruct (0 <=? l)%Z; rewrite firstn_length, L; lia).
  split.
  - rewrite LL. unfold l. destruct len as [l'|]; auto. destruct (Z.leb_spec 0 (Z.of_nat n)); lia.
  - intros t Hlt. rewrite LL in Hlt. destruct (0 <=? l)%Z; rewrite StftProofs.nth_firstn by lia; apply R; lia.
Qed.
Print Assumptions C144_recover.
(** An impulse as the test signal: however strong the noise is said to be, nothing is attenuated. *)
Theorem C144_noise_refuted : exists y x, forall noise base P, 0 <= noise -> 0 < base -> (0 < P)%nat ->
  wiener_deconvolve y x None noise P base (Some y) /\ forall r, wiener_deconvolve y x None noise P base (Some r) -> r = y.
Proof.
  exists [3; -1], [1]. intros noise base P Hno Hb HP. assert (SX : forall k, spec 2 [1] k = C1).
  { intros k. unfold spec, dft. rewrite csum_S, csum_S. cbn [csum bsum nth]. rewrite Nat.mul_0_l. cbn [Z.of_nat Z.opp]. rewrite omega_0. apply C_eq; cbn; ring. }
  assert (U : forall r, wiener_deconvolve [3; -1] [1] None noise P base (Some r) -> r = [3; -1]).
  { intros r W. destruct (C144_recover [3; -1] [1] [3; -1] None base P noise r) as [L V]; auto; try (cbn; lia).
    - intros t. unfold convolution. destruct t as [|[|t]]; [cbn; ring|cbn; ring|]. rewrite nth_overflow by (cbn; lia). symmetry. apply bsum_zero_ext. intros i Hi. destruct i as [|i]; [rewrite (nth_overflow [3; -1]) by (cbn [length]; lia); ring|]. rewrite (nth_overflow [1]) by (cbn; lia). ring.
    - intros k _. change (spec 2 [1] k <> C0). rewrite SX. intros Q. apply (f_equal fst) in Q. cbn in Q. lra.
    - right. exists 1. intros k _. change (Cabs2 (spec 2 [1] k) = 1). rewrite SX. unfold Cabs2. cbn. ring.
    - cbn in L. apply nth_ext with (d := 0) (d' := 0); [exact L|]. intros t Ht. now apply V. }
  split; [|exact U]. destruct (C144_wiener [3; -1] [1] noise base P) as [[h Hh] _]; auto.
  - cbn. lia.
  - intros k _. change (spec 2 [1] k <> C0). rewrite SX. intros Q. apply (f_equal fst) in Q. cbn in Q. lra.
  - now rewrite <- (U h Hh) at 2.
Qed.
Print Assumptions C144_noise_refuted.
(** The test signal [2, 1], whose spectrum is not flat, and the response [3, -1], without noise. *)
Example C144_recover_case : forall P r, (0 < P)%nat -> wiener_deconvolve [6; 1; -1] [2; 1] (Some 2%Z) 0 P 2 (Some r) -> r = [3; -1].
Proof.
  intros P r HP W. destruct (C144_recover [6; 1; -1] [2; 1] [3; -1] (Some 2%Z) 2 P 0 r) as [L V]; auto; try (cbn; lia); try lra.
  - intros [|[|[|[|t]]]]; try (unfold convolution; cbn; ring). rewrite (nth_overflow [6; 1; -1]) by (cbn; lia). symmetry. apply bsum_zero_ext. intros i Hi. destruct (Nat.lt_ge_cases i 2) as [Q|Q]; [rewrite (nth_overflow [3; -1]) by (cbn [length]; lia); ring|rewrite (nth_overflow [2; 1]) by (cbn; lia); ring].
  - intros k Hk Z. change (fft_len (length [6; 1; -1]) (length [2; 1])) with 4%nat in *. unfold spec, dft in Z. rewrite !csum_S in Z. cbn [csum bsum nth] in Z. rewrite Nat.mul_0_l, Nat.mul_1_l in Z. cbn [Z.of_nat Z.opp] in Z. rewrite omega_0 in Z. apply (f_equal Cabs2) in Z.
    match type of Z with context [omega 4 ?q] => pose proof (omega_abs2 4 q) as O; destruct (omega 4 q) as [a b] end. unfold Cabs2 in O, Z. cbn in O, Z. assert (a <= 1) by nra. assert (-1 <= a) by nra. nra.
  - cbn in L. apply nth_ext with (d := 0) (d' := 0); [exact L|]. intros t Ht. now apply V.
Qed.
(** There is a result, for any number of candidates and any noise. *)
Example C144_wiener_case : forall noise P, 0 <= noise -> exists h, wiener_deconvolve [3; -1] [1] None noise P 2 (Some h).
Proof.
  intros noise P Hn. apply C144_wiener; auto; try lra; [cbn; lia|]. intros k _. change (spec 2 [1] k <> C0). unfold spec, dft. rewrite csum_S, csum_S. cbn [csum bsum nth]. rewrite Nat.mul_0_l. cbn [Z.of_nat Z.opp]. rewrite omega_0. intros Q. apply (f_equal fst) in Q. cbn in Q. lra.
Qed.
