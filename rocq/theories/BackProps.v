(** C109: projection back. *)
From Coq Require Import List ZArith Lia Reals Lra Bool.
From Verif Require Import Base Vec Sum Cpx BackModel.
Import ListNotations.
Local Open Scope R_scope.

(** Squared distance between the signal with the gain [conj z] and the reference. *)
Definition distance2 (n : nat) (y x : nat -> C) (z : C) : R := bsum n (fun t => Cabs2 (Conj z * y t - x t)%C).

Lemma Cabs_sq : forall z, Cabs z ^ 2 = Cabs2 z.
Proof. intros z. unfold Cabs. rewrite <- Rsqr_pow2. apply Rsqr_sqrt, Cabs2_nonneg. Qed.
Lemma Cabs_nonneg : forall z, 0 <= Cabs z.
Proof. intros z. apply sqrt_pos. Qed.
Lemma Cabs_zero : forall z, Cabs z = 0 -> z = C0.
Proof. intros z H. apply Cabs2_zero. rewrite <- Cabs_sq, H. ring. Qed.
Lemma Cabs_scal : forall k z, 0 <= k -> Cabs (Cscal k z) = k * Cabs z.
Proof.
  intros k z H. unfold Cabs. replace (Cabs2 (Cscal k z)) with (k ^ 2 * Cabs2 z) by (unfold Cabs2; cbn; ring).
  rewrite sqrt_mult by (try apply pow2_ge_0; apply Cabs2_nonneg). now rewrite sqrt_pow2.
Qed.
Lemma energy_eq : forall n y, bsum n (fun t => Cabs (y t) ^ 2) = bsum n (fun t => Cabs2 (y t)).
Proof. intros. apply bsum_ext. intros. apply Cabs_sq. Qed.
Lemma energy_nonneg : forall n y, 0 <= bsum n (fun t => Cabs2 (y t)).
Proof. intros. apply bsum_nonneg. intros. apply Cabs2_nonneg. Qed.
Lemma silent : forall n y, ~ 0 < bsum n (fun t => Cabs2 (y t)) -> forall t, (t < n)%nat -> y t = C0.
Proof.
  induction n as [|n IH]; intros y H t Ht; [lia|]. cbn [bsum] in H. pose proof (energy_nonneg n y). pose proof (Cabs2_nonneg (y n)).
  destruct (Nat.eq_dec t n) as [->|]; [apply Cabs2_zero; lra|]. apply IH; [lra|lia].
Qed.
Lemma gain_eq : forall n y x, back_gain n y x = if Rlt_dec 0 (bsum n (fun t => Cabs2 (y t))) then Cscal (/ bsum n (fun t => Cabs2 (y t))) (csum n (fun t => (Conj (x t) * y t)%C)) else C1.
Proof. intros. unfold back_gain. now rewrite energy_eq. Qed.

(** Completing the square. *)
Lemma distance_expand : forall n y x z, distance2 n y x z =
  bsum n (fun t => Cabs2 (x t)) + Cabs2 z * bsum n (fun t => Cabs2 (y t)) - 2 * fst (Conj z * csum n (fun t => (Conj (x t) * y t)%C))%C.
Proof.
  induction n as [|n IH]; intros y x z; unfold distance2 in *; [cbn; ring|]. cbn [bsum]. rewrite IH, csum_S. unfold Cabs2. cbn. ring.
Qed.
Lemma distance_square : forall n y x z, let E := bsum n (fun t => Cabs2 (y t)) in 0 < E ->
  distance2 n y x z = distance2 n y x (back_gain n y x) + E * Cabs2 (z - back_gain n y x)%C.
Proof.
  intros n y x z E HE. rewrite !distance_expand. fold E. rewrite gain_eq. fold E. destruct (Rlt_dec 0 E); [|lra].
  set (N := csum n (fun t => (Conj (x t) * y t)%C)). unfold Cabs2. cbn. field. lra.
Qed.

(** C109.  Without limits the gain is the best of all complex gains: no other one brings the
    signal closer to the reference, in any bin and channel. *)
Theorem C109_minimal : forall n Y ref f k z,
  distance2 n (fun t => Y t f k) (fun t => ref t f) (projection_back n Y ref None None f k) <= distance2 n (fun t => Y t f k) (fun t => ref t f) z.
Proof.
  intros n Y ref f k z. cbn [projection_back clip_above clip_below]. set (y := fun t => Y t f k). set (x := fun t => ref t f). unfold projection_back. cbn [clip_above clip_below]. fold y x.
  destruct (Rlt_dec 0 (bsum n (fun t => Cabs2 (y t)))) as [H|H].
  - rewrite (distance_square n y x z H). pose proof (Cabs2_nonneg (z - back_gain n y x)%C). nra.
  - apply Req_le. apply bsum_ext. intros t Ht. rewrite (silent n y H t Ht). f_equal. cring.
Qed.
Print Assumptions C109_minimal.

(** C109.  A channel that is a scaled copy of the reference is mapped onto it. *)
Theorem C109_exact : forall n Y ref f k g, (forall t, (t < n)%nat -> ref t f = (g * Y t f k)%C) ->
  forall t, (t < n)%nat -> (Conj (projection_back n Y ref None None f k) * Y t f k)%C = ref t f.
Proof.
  intros n Y ref f k g H t Ht. pose proof (C109_minimal n Y ref f k (Conj g)) as M. set (c := projection_back n Y ref None None f k) in *.
  assert (Z : distance2 n (fun t => Y t f k) (fun t => ref t f) (Conj g) = 0).
  { apply bsum_zero_ext. intros u Hu. rewrite H, Conj_conj by auto. unfold Cabs2. cbn. ring. }
  rewrite Z in M. destruct (C_eq_dec (Conj c * Y t f k)%C (ref t f)) as [E|E]; auto. exfalso.
  set (e := fun u => (Conj c * Y u f k - ref u f)%C). assert (S : ~ 0 < bsum n (fun u => Cabs2 (e u))) by (unfold distance2 in M; unfold e; lra).
  pose proof (silent n e S t Ht) as Q. unfold e in Q. apply E. apply C_eq; apply (f_equal fst) in Q as Q1; apply (f_equal snd) in Q as Q2; cbn in *; lra.
Qed.
Print Assumptions C109_exact.

(** C109.  The scale of the signal does not matter: a channel multiplied by any factor but
    zero is projected to the same signal. *)
Theorem C109_scale : forall n Y Y' ref f k a, a <> C0 -> (forall t, (t < n)%nat -> Y' t f k = (a * Y t f k)%C) ->
  forall t, (t < n)%nat -> (Conj (projection_back n Y' ref None None f k) * Y' t f k)%C = (Conj (projection_back n Y ref None None f k) * Y t f k)%C.
Proof.
  intros n Y Y' ref f k a Ha H t Ht. unfold projection_back. cbn [clip_above clip_below]. rewrite !gain_eq.
  assert (E : bsum n (fun t => Cabs2 (Y' t f k)) = Cabs2 a * bsum n (fun t => Cabs2 (Y t f k))).
  { rewrite <- bsum_scal. apply bsum_ext. intros u Hu. now rewrite H, Cabs2_mul. }
  assert (N : csum n (fun t => (Conj (ref t f) * Y' t f k)%C) = (a * csum n (fun t => (Conj (ref t f) * Y t f k)%C))%C).
  { rewrite <- csum_scal. apply csum_ext. intros u Hu. rewrite H by auto. ring. }
  assert (A : 0 < Cabs2 a). { pose proof (Cabs2_nonneg a). destruct (Rle_lt_or_eq_dec 0 (Cabs2 a)); auto. exfalso. now apply Ha, Cabs2_zero. }
  rewrite E, N, H by auto. set (e := bsum n (fun t => Cabs2 (Y t f k))). set (m := csum n (fun t => (Conj (ref t f) * Y t f k)%C)).
  destruct (Rlt_dec 0 e) as [P|P].
  - destruct (Rlt_dec 0 (Cabs2 a * e)) as [Q|Q]; [|exfalso; apply Q; now apply Rmult_lt_0_compat].
    unfold Cabs2 in *. apply C_eq; cbn; field; lra.
  - destruct (Rlt_dec 0 (Cabs2 a * e)) as [Q|Q]; [exfalso; nra|]. pose proof (silent n (fun t => Y t f k) P t Ht) as Z. cbv beta in Z. rewrite Z. cring.
Qed.
Print Assumptions C109_scale.

Lemma clip_above_abs : forall u c, 0 <= u -> Cabs (clip_above (Some u) c) = Rmin u (Cabs c) /\ exists k, 0 <= k /\ clip_above (Some u) c = Cscal k c.
Proof.
  intros u c Hu. cbn [clip_above]. pose proof (Cabs_nonneg c). unfold Rmin.
  assert (Q : exists k, 0 <= k /\ c = Cscal k c) by (exists 1; split; [lra|apply C_eq; cbn; ring]).
  destruct (Rlt_dec u (Cabs c)); [|destruct (Rle_dec u (Cabs c)); split; auto; lra]. destruct (Rlt_dec 0 (Cabs c)); [|lra].
  assert (0 <= u / Cabs c) by (apply Rmult_le_pos; [lra|left; apply Rinv_0_lt_compat; lra]).
  split; [|eauto]. rewrite Cabs_scal by auto. destruct (Rle_dec u (Cabs c)); [field; lra|lra].
Qed.
Lemma clip_below_abs : forall l c, 0 <= l -> c <> C0 -> Cabs (clip_below (Some l) c) = Rmax l (Cabs c) /\ exists k, 0 <= k /\ clip_below (Some l) c = Cscal k c.
Proof.
  intros l c Hl Hc. cbn [clip_below]. pose proof (Cabs_nonneg c). unfold Rmax.
  assert (P : 0 < Cabs c) by (destruct (Rle_lt_or_eq_dec 0 (Cabs c)); auto; exfalso; now apply Hc, Cabs_zero).
  assert (Q : exists k, 0 <= k /\ c = Cscal k c) by (exists 1; split; [lra|apply C_eq; cbn; ring]).
  destruct (Rlt_dec (Cabs c) l); [|destruct (Rle_dec l (Cabs c)); split; auto; lra]. destruct (Rlt_dec 0 (Cabs c)); [|lra].
  assert (0 <= l / Cabs c) by (apply Rmult_le_pos; [lra|left; apply Rinv_0_lt_compat; lra]).
  split; [|eauto]. rewrite Cabs_scal by auto. destruct (Rle_dec l (Cabs c)); [lra|field; lra].
Qed.
(** A multiple of [c] is the nearest point to [c] among the points with the same absolute value, and everything beyond. *)
Lemma re_le : forall z c, fst (Conj z * c)%C <= Cabs z * Cabs c.
Proof.
  intros z c. unfold Cabs. rewrite <- sqrt_mult by apply Cabs2_nonneg. destruct (Rle_dec (fst (Conj z * c)%C) 0) as [H|H].
  - eapply Rle_trans; [exact H|apply sqrt_pos].
  - rewrite <- (sqrt_pow2 (fst (Conj z * c)%C)) by lra. apply sqrt_le_1_alt. unfold Cabs2. cbn. pose proof (Rle_0_sqr (fst z * snd c - snd z * fst c)). unfold Rsqr in *. nra.
Qed.
Lemma dist_ge : forall z c, (Cabs z - Cabs c) ^ 2 <= Cabs2 (z - c)%C.
Proof.
  intros z c. pose proof (re_le z c) as H. rewrite <- (Cabs_sq (z - c)%C). rewrite Cabs_sq.
  replace (Cabs2 (z - c)%C) with (Cabs2 z + Cabs2 c - 2 * fst (Conj z * c)%C) by (unfold Cabs2; cbn; ring). rewrite <- (Cabs_sq z), <- (Cabs_sq c). nra.
Qed.
Lemma dist_same : forall k c, 0 <= k -> Cabs2 (Cscal k c - c)%C = (Cabs (Cscal k c) - Cabs c) ^ 2.
Proof.
  intros k c H. rewrite Cabs_scal by auto. replace (k * Cabs c - Cabs c) with ((k - 1) * Cabs c) by ring. rewrite Rpow_mult_distr, Cabs_sq. unfold Cabs2. cbn. ring.
Qed.

(** C109.  With an upper limit, the gain is the best of those within the limit. *)
Theorem C109_clip_up : forall n Y ref f k u z, 0 <= u -> (exists t, (t < n)%nat /\ Y t f k <> C0) -> let c := projection_back n Y ref (Some u) None f k in
  Cabs c <= u /\ (Cabs z <= u -> distance2 n (fun t => Y t f k) (fun t => ref t f) c <= distance2 n (fun t => Y t f k) (fun t => ref t f) z).
Proof.
  intros n Y ref f k u z Hu (t & Ht & Ny) c. set (y := fun t => Y t f k). set (x := fun t => ref t f). unfold c, projection_back. cbn [clip_below]. fold y x.
  set (b := back_gain n y x). destruct (clip_above_abs u b Hu) as [A (q & Hq & B)].
  assert (E : 0 < bsum n (fun t => Cabs2 (y t))).
  { destruct (Rlt_dec 0 (bsum n (fun t => Cabs2 (y t)))) as [|N]; auto. exfalso. apply Ny. exact (silent n y N t Ht). }
  split; [rewrite A; apply Rmin_l|]. intros Hz. rewrite (distance_square n y x z E), (distance_square n y x (clip_above (Some u) b) E). fold b.
  apply Rplus_le_compat_l, Rmult_le_compat_l; [lra|]. eapply Rle_trans; [|apply dist_ge]. rewrite B, dist_same by auto. rewrite <- B, A.
  unfold Rmin. pose proof (Cabs_nonneg b). pose proof (Cabs_nonneg z). destruct (Rle_dec u (Cabs b)).
  - assert (0 <= (u - Cabs z) * (2 * Cabs b - u - Cabs z)) by (apply Rmult_le_pos; lra). nra.
  - replace (Cabs b - Cabs b) with 0 by ring. rewrite pow_i by lia. apply pow2_ge_0.
Qed.
Print Assumptions C109_clip_up.

(** C109.  With a lower limit, a gain that is not zero is raised to the best one beyond it. *)
Theorem C109_clip_down : forall n Y ref f k l z, 0 <= l -> csum n (fun t => (Conj (ref t f) * Y t f k)%C) <> C0 -> let c := projection_back n Y ref None (Some l) f k in
  l <= Cabs c /\ (l <= Cabs z -> distance2 n (fun t => Y t f k) (fun t => ref t f) c <= distance2 n (fun t => Y t f k) (fun t => ref t f) z).
Proof.
  intros n Y ref f k l z Hl Nc c. set (y := fun t => Y t f k). set (x := fun t => ref t f). unfold c, projection_back. cbn [clip_above]. fold y x.
  set (b := back_gain n y x).
  assert (E : 0 < bsum n (fun t => Cabs2 (y t))).
  { destruct (Rlt_dec 0 (bsum n (fun t => Cabs2 (y t)))) as [|N]; auto. exfalso. apply Nc. apply csum_zero_ext. intros t Ht. change (Y t f k) with (y t). rewrite (silent n y N t Ht). ring. }
  assert (Bn : b <> C0).
  { unfold b. rewrite gain_eq. destruct (Rlt_dec 0 (bsum n (fun t => Cabs2 (y t)))); [|lra]. intros Q. apply Nc.
    set (N := csum n (fun t => (Conj (x t) * y t)%C)) in *. change (csum n (fun t => (Conj (ref t f) * Y t f k)%C)) with N.
    assert (0 < / bsum n (fun t => Cabs2 (y t))) by now apply Rinv_0_lt_compat. apply C_eq; apply (f_equal fst) in Q as Q1; apply (f_equal snd) in Q as Q2; cbn in *; nra. }
  destruct (clip_below_abs l b Hl Bn) as [A (q & Hq & B)].
  split; [rewrite A; apply Rmax_l|]. intros Hz. rewrite (distance_square n y x z E), (distance_square n y x (clip_below (Some l) b) E). fold b.
  apply Rplus_le_compat_l, Rmult_le_compat_l; [lra|]. eapply Rle_trans; [|apply dist_ge]. rewrite B, dist_same by auto. rewrite <- B, A.
  unfold Rmax. pose proof (Cabs_nonneg b). pose proof (Cabs_nonneg z). destruct (Rle_dec l (Cabs b)).
  - replace (Cabs b - Cabs b) with 0 by ring. rewrite pow_i by lia. apply pow2_ge_0.
  - assert (0 <= (Cabs z - l) * (Cabs z + l - 2 * Cabs b)) by (apply Rmult_le_pos; lra). nra.
Qed.
Print Assumptions C109_clip_down.

(** Two frames, an orthogonal part in the reference. *)
Example C109_case : projection_back 2 (fun t f k => nth t [(1, 0); (0, 1)] C0) (fun t f => nth t [(2, 0); (0, 0)] C0) None None 0 0 = (1, 0).
Proof.
  unfold projection_back. cbn [clip_above clip_below]. rewrite gain_eq. unfold Cabs2. cbn. destruct (Rlt_dec 0 (0 + (1 * 1 + 0 * 0) + (0 * 0 + 1 * 1))); [|lra]. apply C_eq; cbn; field.
Qed.

(** A signal orthogonal to the reference gets the gain 0 whatever the lower limit. *)
Theorem C109_zero_gain_refuted : exists n Y ref l, 0 < l /\ Cabs (projection_back n Y ref None (Some l) 0 0) < l.
Proof.
  exists 1%nat, (fun _ _ _ => C1), (fun _ _ => C0), 1. split; [lra|]. unfold projection_back. cbn [clip_above clip_below]. rewrite gain_eq. unfold Cabs2. cbn.
  destruct (Rlt_dec 0 (0 + (1 * 1 + 0 * 0))); [|lra]. set (c := Cscal _ _). assert (Z : c = C0) by (apply C_eq; cbn; ring). rewrite Z.
  assert (A : Cabs C0 = 0) by (unfold Cabs, Cabs2; cbn; replace (0 * 0 + 0 * 0) with 0 by ring; apply sqrt_0). rewrite A.
  destruct (Rlt_dec 0 1); [|lra]. destruct (Rlt_dec 0 0); [lra|]. rewrite A. lra.
Qed.
Print Assumptions C109_zero_gain_refuted.
