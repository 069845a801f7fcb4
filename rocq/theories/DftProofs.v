(** Inversion and convolution theorems. *)
From Coq Require Import List ZArith Lia Reals Lra Bool.
From Verif Require Import Base BaseProofs Vec Sum Cpx DftModel.
Import ListNotations.
Local Open Scope C_scope.

Lemma Z_of_nat_mod : forall a n, (0 < n)%nat -> Z.of_nat (a mod n) = (Z.of_nat a mod Z.of_nat n)%Z.
Proof. intros. apply Nat2Z.inj_mod. Qed.
Lemma idft_dft : forall n x j, (j < n)%nat -> idft n (dft n x) j = x j.
Proof.
  intros n x j Hj. unfold idft, dft. assert (Hn : (0 < n)%nat) by lia.
  rewrite (csum_ext n _ (fun k => csum n (fun i => x i * omega n ((Z.of_nat j - Z.of_nat i) * Z.of_nat k)))).
  - rewrite csum_swap. rewrite (csum_ext n _ (fun i => x i * (if (Nat.eqb i j) then RtoC (INR n) else C0))).
    + rewrite (csum_delta n j); [|auto|intros i Hi Ne; destruct (Nat.eqb_spec i j); [congruence|ring]].
      rewrite Nat.eqb_refl. assert (INR n <> 0)%R by (apply not_0_INR; lia). destruct (x j) as [a b]. unfold Cscal, Cmul, RtoC. cbn. f_equal; field; auto.
    + intros i Hi. rewrite csum_scal. f_equal. rewrite omega_sum by auto. destruct (Nat.eqb_spec i j) as [-> | Ne].
      * replace (Z.of_nat j - Z.of_nat j)%Z with 0%Z by lia. rewrite Z.mod_0_l by lia. reflexivity.
      * destruct (Z.eqb_spec ((Z.of_nat j - Z.of_nat i) mod Z.of_nat n) 0) as [E|E]; [|reflexivity]. exfalso.
        apply Z.mod_divide in E; [|lia]. destruct E as (q & E). assert (q = 0 \/ 1 <= q \/ q <= -1)%Z as [Q|[Q|Q]] by lia; [subst q; lia|nia|nia].
  - intros k Hk. rewrite <- csum_scal_r. apply csum_ext. intros i Hi.
    replace (x i * omega n (- Z.of_nat (i * k)) * omega n (Z.of_nat (j * k))) with (x i * (omega n (- Z.of_nat (i * k)) * omega n (Z.of_nat (j * k)))) by ring.
    rewrite <- omega_add. f_equal. f_equal. lia.
Qed.
Lemma dft_conv : forall n x y k, (0 < n)%nat ->
  dft n x k * dft n y k = dft n (fun m => csum n (fun i => x i * y ((m + (n - i)) mod n)%nat)) k.
Proof.
  intros n x y k Hn. unfold dft.
  rewrite <- csum_scal_r. rewrite (csum_ext n (fun j => csum n _ * _) (fun m => csum n (fun i => x i * y ((m + (n - i)) mod n)%nat * omega n (- Z.of_nat (m * k))))) by (intros; now rewrite csum_scal_r).
  rewrite csum_swap. apply csum_ext. intros i Hi.
  rewrite <- csum_scal. rewrite <- (csum_mod n (n - i)) by auto. apply csum_ext. intros m Hm.
  assert (E : omega n (- Z.of_nat (((m + (n - i)) mod n) * k)) = omega n (- Z.of_nat (m * k)) * omega n (Z.of_nat (i * k))).
  { rewrite <- omega_add. rewrite <- omega_mod by auto. rewrite <- (omega_mod n (- Z.of_nat (m * k) + Z.of_nat (i * k))) by auto. f_equal.
    rewrite Nat2Z.inj_mul, Z_of_nat_mod by auto. 
    rewrite <- (Z.mul_opp_l), Z.mul_mod by lia. rewrite <- (Z.sub_0_l (_ mod _)), Zminus_mod, Z.mod_mod, <- Zminus_mod by lia. rewrite <- Z.mul_mod by lia.
    replace ((0 - Z.of_nat (m + (n - i))) * Z.of_nat k)%Z with (- Z.of_nat (m * k) + Z.of_nat (i * k) + (- Z.of_nat k) * Z.of_nat n)%Z by nia.
    now rewrite Z.mod_add by lia. }
  rewrite E. replace (omega n (- Z.of_nat (i * k))) with (Conj (omega n (Z.of_nat (i * k)))) by now rewrite omega_opp.
  pose proof (omega_conj n (Z.of_nat (i * k))) as Q.
  replace (x i * Conj (omega n (Z.of_nat (i * k))) * (y ((m + (n - i)) mod n)%nat * (omega n (- Z.of_nat (m * k)) * omega n (Z.of_nat (i * k))))) with
    (x i * y ((m + (n - i)) mod n)%nat * omega n (- Z.of_nat (m * k)) * (omega n (Z.of_nat (i * k)) * Conj (omega n (Z.of_nat (i * k))))) by ring.
  rewrite Q. ring.
Qed.
Lemma dft_ext : forall n x y k, (forall i, (i < n)%nat -> x i = y i) -> dft n x k = dft n y k.
Proof. intros. unfold dft. apply csum_ext. intros. now rewrite H. Qed.
Lemma idft_ext : forall n x y k, (forall i, (i < n)%nat -> x i = y i) -> idft n x k = idft n y k.
Proof. intros. unfold idft. f_equal. apply csum_ext. intros. now rewrite H. Qed.
(** Circular convolution. *)
Lemma idft_conv : forall n x y j, (j < n)%nat ->
  idft n (fun k => dft n x k * dft n y k) j = csum n (fun i => x i * y ((j + (n - i)) mod n)%nat).
Proof.
  intros n x y j Hj. rewrite (idft_ext n _ (dft n (fun m => csum n (fun i => x i * y ((m + (n - i)) mod n)%nat)))) by (intros; apply dft_conv; lia).
  now rewrite idft_dft.
Qed.

(** ** Real transforms *)
Definition hermitian (n : nat) (H : nat -> C) : Prop := forall k, (0 < k < n)%nat -> H (n - k)%nat = Conj (H k).
Lemma dft_hermitian : forall n x, hermitian n (dft n (fun j => RtoC (x j))).
Proof.
  intros n x k Hk. unfold dft. rewrite csum_conj. apply csum_ext. intros j Hj. rewrite Conj_mul, Conj_RtoC. f_equal.
  rewrite <- omega_opp. rewrite <- omega_mod by lia. rewrite <- (omega_mod n (- - _)) by lia. f_equal.
  replace (- Z.of_nat (j * (n - k)))%Z with (- - Z.of_nat (j * k) + (- Z.of_nat j) * Z.of_nat n)%Z by nia. now rewrite Z.mod_add by lia.
Qed.
Lemma dft_0_real : forall n x, snd (dft n (fun j => RtoC (x j)) 0) = 0%R.
Proof. intros. unfold dft. cbn [snd csum]. apply bsum_zero_ext. intros j Hj. rewrite Nat.mul_0_r. cbn [Z.of_nat Z.opp]. rewrite omega_0. cbn. ring. Qed.
Lemma nth_irfft : forall n X j, (j < n)%nat -> nth j (irfft n X) 0%R = (/ INR n * (fst (nth 0 X C0) +
                  bsum ((n - 1) / 2) (fun k => 2 * fst (nth (k + 1) X C0 * omega n (Z.of_nat (j * (k + 1))))%C) +
                  if Nat.even n then fst (nth (n / 2) X C0) * fst (omega n (Z.of_nat (j * (n / 2)))) else 0))%R.
Proof. intros. unfold irfft. now rewrite nth_map_seq by auto. Qed.
Lemma irfft_length : forall n X, length (irfft n X) = n.
Proof. intros. unfold irfft. now rewrite map_length, seq_length. Qed.
Lemma rfft_length : forall n x, length (rfft n x) = (n / 2 + 1)%nat.
Proof. intros. unfold rfft. now rewrite map_length, seq_length. Qed.
Lemma nth_rfft : forall n x k, (k <= n / 2)%nat -> nth k (rfft n x) C0 = dft n (fun j => RtoC (nth j x 0%R)) k.
Proof.
  intros. unfold rfft. rewrite nth_indep with (d' := dft n (fun j => RtoC (nth j x 0%R)) 0%nat) by (rewrite map_length, seq_length; lia).
  rewrite (map_nth (dft n _)). rewrite seq_nth by lia. reflexivity.
Qed.
Lemma omega_half : forall n j, (0 < n)%nat -> Nat.even n = true -> snd (omega n (Z.of_nat (j * (n / 2)))) = 0%R.
Proof.
  intros n j Hn E. unfold omega, cis. cbn [snd]. apply Nat.even_spec in E. destruct E as (h & ->). replace (2 * h / 2)%nat with h by (rewrite Nat.mul_comm, Nat.div_mul; lia).
  replace (2 * PI * IZR (Z.of_nat (j * h)) / INR (2 * h))%R with (INR j * PI)%R.
  - replace (INR j * PI)%R with (0 + INR j * PI)%R by ring. clear. induction j as [|j IH].
    + replace (0 + INR 0 * PI)%R with 0%R by (cbn; ring). apply sin_0.
    + rewrite S_INR. replace (0 + (INR j + 1) * PI)%R with ((0 + INR j * PI) + PI)%R by ring. rewrite neg_sin, IH. ring.
  - rewrite <- INR_IZR_INZ, !mult_INR. cbn [INR]. field. apply not_0_INR. lia.
Qed.
(** irfft of the lower half of a Hermitian spectrum is the inverse transform of all of it. *)
Lemma irfft_idft : forall n X H j, (j < n)%nat -> hermitian n H -> (forall k, (k <= n / 2)%nat -> nth k X C0 = H k) ->
  nth j (irfft n X) 0%R = fst (idft n H j).
Proof.
  intros n X H j Hj Hh HX. rewrite nth_irfft by auto. unfold idft. cbn [fst Cscal]. f_equal. rewrite fst_csum.
  set (f := fun k => fst (H k * omega n (Z.of_nat (j * k)))).
  change (bsum n (fun i => fst (H i * omega n (Z.of_nat (j * i))))) with (bsum n f).
  assert (F : forall k, (0 < k < n)%nat -> f (n - k)%nat = f k).
  { intros k Hk. unfold f. rewrite Hh by lia. replace (omega n (Z.of_nat (j * (n - k)))) with (Conj (omega n (Z.of_nat (j * k)))).
    - rewrite <- Conj_mul. reflexivity.
    - rewrite <- omega_opp. rewrite <- (omega_cycle n (- Z.of_nat (j * k)) (Z.of_nat j)) by lia. f_equal. nia. }
  set (h := ((n - 1) / 2)%nat).
  assert (Hd : n = (1 + h + (if Nat.even n then 1 else 0) + h)%nat).
  { unfold h. destruct (Nat.even n) eqn:E.
    - apply Nat.even_spec in E. destruct E as (q & ->). replace ((2 * q - 1) / 2)%nat with (q - 1)%nat; [lia|]. apply Nat.div_unique with 1%nat; lia.
    - assert (O : Nat.odd n = true) by (unfold Nat.odd; now rewrite E). apply Nat.odd_spec in O. destruct O as (q & ->). replace (2 * q + 1 - 1)%nat with (q * 2)%nat by lia. rewrite Nat.div_mul; lia. }
  assert (S0 : f 0%nat = fst (nth 0 X C0)).
  { unfold f. rewrite HX by lia. rewrite Nat.mul_0_r. cbn [Z.of_nat]. rewrite omega_0. cbn. ring. }
  assert (hh : (h <= n / 2)%nat) by (unfold h; apply Nat.div_le_mono; lia).
  assert (T : bsum h (fun k => 2 * fst (nth (k + 1) X C0 * omega n (Z.of_nat (j * (k + 1))))%C)%R = (bsum h (fun k => f (1 + k)%nat) + bsum h (fun k => f (1 + k)%nat))%R).
  { rewrite <- bsum_plus. apply bsum_ext. intros k Hk. rewrite HX.
    - unfold f. rewrite (Nat.add_comm k 1). ring.
    - destruct (Nat.even n) eqn:E; [|]; pose proof (Nat.div_mod n 2); pose proof (Nat.mod_upper_bound n 2); lia. }
  rewrite T. replace (bsum n f) with (bsum (1 + h + (if Nat.even n then 1 else 0) + h) f) by (now rewrite <- Hd).
  rewrite bsum_split. rewrite (bsum_split (1 + h)). rewrite (bsum_split 1 h). cbn [bsum].
  replace (bsum h (fun i => f (1 + h + (if Nat.even n then 1 else 0) + i)%nat)) with (bsum h (fun k => f (1 + k)%nat)).
  - rewrite S0. destruct (Nat.even n) eqn:E.
    + cbn [bsum]. rewrite (HX (n / 2)%nat) by lia. replace (1 + h + 0)%nat with (n / 2)%nat by (symmetry; apply Nat.div_unique with 0%nat; lia).
      pose proof (omega_half n j ltac:(lia) E) as Q.
      replace (f (n / 2)%nat) with (fst (H (n / 2)%nat) * fst (omega n (Z.of_nat (j * (n / 2)))))%R by (unfold f; cbn [fst Cmul]; rewrite Q; ring). ring.
    + cbn [bsum]. ring.
  - rewrite bsum_rev. apply bsum_ext. intros i Hi. rewrite <- (F (1 + (h - 1 - i))%nat) by lia. f_equal. lia.
Qed.
(** rfft followed by irfft returns the signal (padded or cut to [n]). *)
Lemma irfft_rfft : forall n x j, (j < n)%nat -> nth j (irfft n (rfft n x)) 0%R = nth j x 0%R.
Proof.
  intros n x j Hj. rewrite (irfft_idft n _ (dft n (fun j => RtoC (nth j x 0%R)))); auto.
  - now rewrite idft_dft.
  - apply (dft_hermitian n (fun j => nth j x 0%R)).
  - intros k Hk. now apply nth_rfft.
Qed.
Lemma hermitian_mul : forall n G H, hermitian n G -> hermitian n H -> hermitian n (fun k => G k * H k).
Proof. intros n G H HG HH k Hk. rewrite HG, HH, Conj_mul by auto. reflexivity. Qed.
(** Multiplying spectra is circular convolution. *)
Lemma irfft_product : forall n x y Z j, (j < n)%nat ->
  (forall k, (k <= n / 2)%nat -> nth k Z C0 = nth k (rfft n x) C0 * nth k (rfft n y) C0) ->
  nth j (irfft n Z) 0%R = bsum n (fun i => (nth i x 0 * nth ((j + (n - i)) mod n) y 0)%R).
Proof.
  intros n x y Z j Hj HZ.
  rewrite (irfft_idft n Z (fun k => dft n (fun j => RtoC (nth j x 0%R)) k * dft n (fun j => RtoC (nth j y 0%R)) k)); auto.
  - rewrite idft_conv by auto. rewrite fst_csum. apply bsum_ext. intros i Hi. cbn. ring.
  - apply hermitian_mul; [apply (dft_hermitian n (fun j => nth j x 0%R))|apply (dft_hermitian n (fun j => nth j y 0%R))].
  - intros k Hk. rewrite HZ by auto. now rewrite !nth_rfft by auto.
Qed.
