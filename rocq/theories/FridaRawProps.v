(** C162: amplitudes of FRIDA from raw microphone signals. *)
From Coq Require Import List ZArith Lia Reals Lra Bool.
From Verif Require Import Base BaseProofs Sum Cpx SphereModel FridaModel FridaProps FridaImgProps FridaAmpModel FridaRawModel.
Import ListNotations.
Local Open Scope R_scope.

(** ** Specification *)
Definition misfit (rows cols : nat) (A : nat -> nat -> C) (y x : nat -> C) : R := bsum rows (fun i => Cabs2 (Csub (y i) (csum cols (fun j => Cmul (A i j) (x j))))).
(** scipy.linalg.lstsq returns x: no vector is closer *)
Definition is_lstsq (rows cols : nat) (A : nat -> nat -> C) (y x : nat -> C) : Prop := forall z, misfit rows cols A y x <= misfit rows cols A y z.
(** the phase at microphone q of a wave of azimuth phi, coordinates in units of the wave length over 2 PI *)
Definition phase (px py : vect) (phi : R) (q : nat) : C := cis (- (cos phi * px q + sin phi * py q)).
(** the sources cannot be exchanged for others with the same signals *)
Definition heard_apart (K n_mics : nat) (px py : vect) (phi : vect) : Prop :=
  forall y, (forall q, (q < n_mics)%nat -> csum K (fun k => Cmul (phase px py (phi k) q) (y k)) = C0) -> forall k, (k < K)%nat -> y k = C0.

(** ** Proofs *)
Lemma Cabs2_nonneg' z : 0 <= Cabs2 z.
Proof. unfold Cabs2. nra. Qed.
Lemma Cabs2_zero' z : Cabs2 z = 0 -> z = C0.
Proof. intros H. unfold Cabs2 in H. apply C_eq; cbn; nra. Qed.
Lemma csum_bands n K (f : nat -> C) : csum (n * K) f = csum n (fun b => csum K (fun k => f (b * K + k)%nat)).
Proof.
  induction n as [|n IH]; [reflexivity|]. replace (S n * K)%nat with (n * K + K)%nat by lia. rewrite csum_split, IH. reflexivity.
Qed.
Lemma block_row n_mics n_bands K px py phi x b q : (b < n_bands)%nat -> (q < n_mics)%nat ->
  csum (n_bands * K) (fun j => Cmul (amp_mtx K n_mics px py phi (b * n_mics + q) j) (x j)) = csum K (fun k => Cmul (phase (px b) (py b) (phi k) q) (x (b * K + k)%nat)).
Proof.
  intros Hb Hq. assert (D : ((b * n_mics + q) / n_mics = b)%nat) by (rewrite Nat.div_add_l, Nat.div_small by lia; lia). assert (R : ((b * n_mics + q) mod n_mics = q)%nat) by (rewrite Nat.add_comm, Nat.mod_add, Nat.mod_small by lia; reflexivity).
  rewrite csum_bands. rewrite (csum_delta n_bands b); [|exact Hb|].
  - apply csum_ext. intros k Hk. unfold amp_mtx. rewrite D, R. rewrite Nat.div_add_l, Nat.div_small, Nat.add_0_r, Nat.eqb_refl by lia. rewrite (Nat.add_comm (b * K) k), Nat.mod_add, Nat.mod_small by lia. reflexivity.
  - intros c Hc N. apply csum_zero_ext. intros k Hk. unfold amp_mtx. rewrite D. rewrite Nat.div_add_l, Nat.div_small, Nat.add_0_r by lia. destruct (Nat.eqb_spec b c); [congruence|]. apply C_eq; cbn; ring.
Qed.

(** C162.  For raw signals that are exact for sources at the azimuths found, the amplitudes are those of the sources, band by band, and the
    error is zero. *)
Theorem C162_amplitudes : forall clstsq K n_mics n_bands px py a phi amp,
  is_lstsq (n_bands * n_mics) (n_bands * K) (amp_mtx K n_mics px py phi) (flat n_mics a) (alphak_recon clstsq K n_mics n_bands px py a phi) ->
  (forall b, (b < n_bands)%nat -> heard_apart K n_mics (px b) (py b) phi) ->
  (forall q b, (q < n_mics)%nat -> (b < n_bands)%nat -> a q b = csum K (fun k => Cmul (phase (px b) (py b) (phi k) q) (amp k b))) ->
  (forall recon G k b, recon G = phi -> (k < K)%nat -> (b < n_bands)%nat -> snd (raw_now clstsq K n_mics n_bands px py a recon G None) k b = amp k b) /\
  raw_error clstsq K n_mics n_bands px py a phi = 0.
Proof.
  intros clstsq K n_mics n_bands px py a phi amp HL HA Ha. set (x := alphak_recon clstsq K n_mics n_bands px py a phi) in *. set (A := amp_mtx K n_mics px py phi) in *.
  assert (ROW : forall i, (i < n_bands * n_mics)%nat -> exists b q, i = (b * n_mics + q)%nat /\ (b < n_bands)%nat /\ (q < n_mics)%nat).
  { intros i Hi. assert (N : n_mics <> 0%nat) by (intros E; subst; lia). exists (i / n_mics)%nat, (i mod n_mics)%nat. split; [rewrite Nat.mul_comm; now apply Nat.div_mod|]. split; [apply Nat.div_lt_upper_bound; lia|now apply Nat.mod_upper_bound]. }
  assert (FL : forall b q, (b < n_bands)%nat -> (q < n_mics)%nat -> flat n_mics a (b * n_mics + q) = a q b).
  { intros b q Hb Hq. unfold flat. rewrite (Nat.add_comm (b * n_mics) q), Nat.mod_add, Nat.mod_small by lia. rewrite (Nat.add_comm q), Nat.div_add_l, Nat.div_small, Nat.add_0_r by lia. reflexivity. }
  set (z := fun j => amp (j mod K)%nat (j / K)%nat).
  assert (Z : misfit (n_bands * n_mics) (n_bands * K) A (flat n_mics a) z = 0).
  { apply bsum_zero_ext. intros i Hi. destruct (ROW i Hi) as (b & q & -> & Hb & Hq). rewrite FL, Ha by assumption. unfold A. rewrite block_row by assumption.
    rewrite (csum_ext K (fun k => Cmul (phase (px b) (py b) (phi k) q) (z (b * K + k)%nat)) (fun k => Cmul (phase (px b) (py b) (phi k) q) (amp k b))).
    - unfold Cabs2, Csub. cbn. ring.
    - intros k Hk. unfold z. rewrite (Nat.add_comm (b * K) k), Nat.mod_add, Nat.mod_small by lia. rewrite (Nat.add_comm k), Nat.div_add_l, Nat.div_small, Nat.add_0_r by lia. reflexivity. }
  assert (X : misfit (n_bands * n_mics) (n_bands * K) A (flat n_mics a) x = 0).
  { apply Rle_antisym; [rewrite <- Z; apply HL|]. apply bsum_nonneg. intros. apply Cabs2_nonneg'. }
  split; [|unfold raw_error; fold A; fold x; unfold misfit in X; rewrite X; apply sqrt_0].
  intros recon G k b E Hk Hb. unfold raw_now. rewrite E. cbn [snd]. fold x.
  assert (D : Csub (x (b * K + k)%nat) (amp k b) = C0).
  { apply (HA b Hb (fun k => Csub (x (b * K + k)%nat) (amp k b))); [|exact Hk]. intros q Hq.
    rewrite (csum_ext K _ (fun k => Csub (Cmul (phase (px b) (py b) (phi k) q) (x (b * K + k)%nat)) (Cmul (phase (px b) (py b) (phi k) q) (amp k b)))) by (intros; ring).
    rewrite csum_sub. rewrite <- Ha by assumption. rewrite <- (block_row n_mics n_bands K px py phi x b q Hb Hq). fold A.
    assert (Hi : (b * n_mics + q < n_bands * n_mics)%nat) by nia.
    pose proof (bsum_all_zero _ _ (fun i _ => Cabs2_nonneg' _) X (b * n_mics + q)%nat Hi) as Q. cbv beta in Q. apply Cabs2_zero' in Q. rewrite FL in Q by assumption.
    transitivity (Csub C0 (Csub (a q b) (csum (n_bands * K) (fun j => Cmul (A (b * n_mics + q)%nat j) (x j))))); [ring|]. rewrite Q. ring. }
  transitivity (Cadd (Csub (x (b * K + k)%nat) (amp k b)) (amp k b)); [ring|]. rewrite D. ring.
Qed.
Print Assumptions C162_amplitudes.

(** C162.  Without updates of the mapping the result is that of one pass. *)
Theorem C162_single : forall clstsq lstsq solve K M n_mics n_bands px py a recon G_iter G, (G_iter <= 1)%nat -> (K <= M)%nat -> (2 * M + 1 <= n_mics * (n_mics - 1))%nat ->
  exists alpha, recon_raw clstsq lstsq solve K M n_mics n_bands px py a recon G_iter G = Some (fun k => mod_2pi (recon G k - PI), alpha) /\
    forall k b, alpha k b = alphak_recon clstsq K n_mics n_bands px py a (recon G) (b * K + k)%nat.
Proof.
  intros. unfold recon_raw. destruct (Nat.ltb_spec M K); [lia|]. destruct (Nat.ltb_spec (n_mics * (n_mics - 1)) (2 * M + 1)); [lia|]. destruct (Nat.ltb_spec 1 G_iter); [lia|]. cbn. eexists. split; reflexivity.
Qed.
Print Assumptions C162_single.

(** C162.  FRIDA(signal_type="raw", G_iter=n) with n > 1 raises for every array and every signal: the update is that of visibilities. *)
Theorem C162_update : forall clstsq lstsq solve K M n_mics n_bands px py a recon G_iter G, (1 <= K)%nat -> (1 < G_iter)%nat ->
  recon_raw clstsq lstsq solve K M n_mics n_bands px py a recon G_iter G = None.
Proof.
  intros clstsq lstsq solve K M n px n_bands py a recon G_iter G HK HG. unfold recon_raw. destruct (Nat.ltb_spec M K); [reflexivity|]. destruct (Nat.ltb_spec (n * (n - 1)) (2 * M + 1)); [reflexivity|]. destruct (Nat.ltb_spec 1 G_iter); [|lia].
  destruct G_iter as [|g]; [lia|]. cbn [raw_passes]. unfold raw_update. assert (N : (3 <= n)%nat) by nia. destruct (Nat.eqb_spec (2 * (n * (n - 1))) (2 * n)) as [E|_]; [nia|reflexivity].
Qed.
Print Assumptions C162_update.

(** C162.  An array and a source for which visibilities could be used with updates, but raw signals raise. *)
Theorem C162_update_refuted : exists K M n_mics, (1 <= K <= M)%nat /\ (2 * M + 1 <= n_mics * (n_mics - 1))%nat /\
  forall clstsq lstsq solve n_bands px py a recon G, recon_raw clstsq lstsq solve K M n_mics n_bands px py a recon 2 G = None.
Proof. exists 1%nat, 2%nat, 6%nat. split; [lia|]. split; [cbn; lia|]. intros. apply C162_update; lia. Qed.
Print Assumptions C162_update_refuted.

(** ** Examples *)
(** one source of amplitude (3, 4), two microphones, one band *)
Definition ex_x : nat -> vect := fun _ m => INR m.
Definition ex_sig : nat -> nat -> C := fun q b => Cmul (phase (ex_x b) (fun _ => 0) 0 q) (3, 4).
Example C162_amplitudes_ex : raw_error (fun _ _ _ _ _ => (3, 4)) 1 2 1 ex_x (fun _ _ => 0) ex_sig (fun _ => 0) = 0.
Proof.
  apply (C162_amplitudes (fun _ _ _ _ _ => (3, 4)) 1 2 1 ex_x (fun _ _ => 0) ex_sig (fun _ => 0) (fun _ _ => (3, 4))).
  - intros z. unfold misfit. apply Rle_trans with 0; [right; apply bsum_zero_ext|apply bsum_nonneg; intros; apply Cabs2_nonneg'].
    intros i Hi. cbn in Hi. replace i with (0 * 2 + i)%nat by lia. rewrite block_row by lia. unfold flat, ex_sig, alphak_recon. rewrite (Nat.mod_small (0 * 2 + i)%nat), (Nat.div_small (0 * 2 + i)%nat) by lia. replace (0 * 2 + i)%nat with i by lia.
    assert (S1 : forall f, csum 1 f = f 0%nat) by (intros f; unfold csum; cbn; apply C_eq; cbn; ring). rewrite S1. unfold Cabs2, Csub. cbn. ring.
  - intros b Hb y H k Hk. specialize (H 0%nat ltac:(lia)). replace k with 0%nat by lia. unfold phase, ex_x in H. cbn [INR] in H. replace (- (cos 0 * 0 + sin 0 * 0)) with 0 in H by ring. rewrite cis_0 in H.
    rewrite <- H. unfold csum. cbn. apply C_eq; cbn; ring.
  - intros q b Hq Hb. unfold ex_sig, csum. cbn. apply C_eq; cbn; ring.
Qed.
