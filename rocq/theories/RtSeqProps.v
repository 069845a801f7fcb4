(** C93, C94: the random sequence behind the ray tracing impulse response. *)
From Coq Require Import List ZArith Lia Reals Lra Bool Psatz Sorted.
From Verif Require Import Base Vec RirModel RirProofs SimulateModel SimulateSpec SimulateProofs BandsModel RtModel BaseProofs.
Import ListNotations.
Local Open Scope R_scope.

(** ** C93: the times of the arrivals *)

(** Consecutive elements of a list. *)
Definition consecutive {A} (l : list A) (j : nat) (a b : A) : Prop := nth_error l j = Some a /\ nth_error l (S j) = Some b.

Lemma rate_pos : forall V c mx t0 t, 0 < V -> 0 < c -> 0 < mx -> 0 < t0 -> t0 <= t -> 0 < rate V c mx t0 t.
Proof.
  intros V c mx t0 t HV Hc Hm H0 Ht. unfold rate, fpcv. apply Rmin_glb_lt; [|exact Hm].
  apply Rmult_lt_0_compat; [|apply pow_lt; lra].
  apply Rdiv_lt_0_compat; [|exact HV]. pose proof PI_RGT_0.
  apply Rmult_lt_0_compat; [lra|apply pow_lt; exact Hc].
Qed.

Lemma ln_inv_pos : forall z, 0 < z < 1 -> 0 < ln (1 / z).
Proof.
  intros z Hz. rewrite <- ln_1. apply ln_increasing; [lra|]. unfold Rdiv. rewrite Rmult_1_l.
  rewrite <- Rinv_1. apply Rinv_lt_contravar; lra.
Qed.

Section Loop.
Variables V c mx t0 stop : R.
Hypotheses (HV : 0 < V) (Hc : 0 < c) (Hm : 0 < mx) (H0 : 0 < t0).

Lemma loop_head : forall fuel z t l, poisson_loop fuel V c mx t0 stop z t = Some l -> exists l', l = t :: l'.
Proof.
  intros [|n] z t l H; cbn [poisson_loop] in H; destruct (Rlt_dec t stop); try discriminate.
  - injection H as <-. eauto.
  - destruct (Req_EM_T _ _); [discriminate|].
    destruct (poisson_loop n _ _ _ _ _ _ _); cbn [bind] in H; [|discriminate]. injection H as <-. eauto.
  - injection H as <-. eauto.
Qed.

Lemma loop_steps : forall fuel z t l, (forall i, 0 < z i < 1) -> t0 <= t ->
  poisson_loop fuel V c mx t0 stop z t = Some l ->
  (forall j a b, consecutive l j a b -> t0 <= a < stop /\ b = a + ln (1 / z j) / rate V c mx t0 a /\ a < b) /\
  stop <= last l 0.
Proof.
  induction fuel as [|n IH]; intros z t l Hz Ht H; cbn [poisson_loop] in H; destruct (Rlt_dec t stop) as [L|L]; try discriminate.
  - injection H as <-. split; [|cbn; lra]. intros [|j] a b [_ H2]; cbn in H2; discriminate.
  - destruct (Req_EM_T _ _); [discriminate|].
    set (t' := t + ln (1 / z 0%nat) / rate V c mx t0 t) in *.
    assert (G : t < t').
    { unfold t'. pose proof (rate_pos V c mx t0 t HV Hc Hm H0 Ht). pose proof (ln_inv_pos _ (Hz 0%nat)).
      pose proof (Rdiv_lt_0_compat _ _ H2 H1). lra. }
    destruct (poisson_loop n _ _ _ _ _ (fun i => z (S i)) t') as [r|] eqn:E; cbn [bind] in H; [|discriminate].
    assert (E2 : l = t :: r) by congruence. clear H. subst l.
    destruct (IH (fun i => z (S i)) t' r (fun i => Hz (S i)) ltac:(lra) E) as [IH1 IH2].
    destruct (loop_head _ _ _ _ E) as [r' ->].
    split; [|exact IH2]. intros [|j] a b [H1 H2].
    + cbn in H1, H2. assert (a = t) by congruence. assert (b = t') by congruence. subst a b.
      split; [lra|]. split; [reflexivity|exact G].
    + apply (IH1 j a b). split; assumption.
  - injection H as <-. split; [|cbn; lra]. intros [|j] a b [_ H2]; cbn in H2; discriminate.
Qed.

(** Every gap is at least [ln (1/q) / mx], so the loop ends. *)
Lemma loop_ends : forall q n z t, 0 < q < 1 -> (forall i, 0 < z i <= q) -> t0 <= t ->
  stop <= t + INR n * (ln (1 / q) / mx) -> exists l, poisson_loop n V c mx t0 stop z t = Some l.
Proof.
  intros q n. induction n as [|n IH]; intros z t Hq Hz Ht Hs.
  - cbn [poisson_loop]. destruct (Rlt_dec t stop) as [L|L]; [|eauto]. cbn [INR] in Hs. lra.
  - cbn [poisson_loop]. destruct (Rlt_dec t stop) as [L|L]; [|eauto].
    pose proof (Hz 0%nat) as Z0. destruct (Req_EM_T _ _); [lra|].
    set (dt := ln (1 / z 0%nat) / rate V c mx t0 t).
    assert (G : ln (1 / q) / mx <= dt).
    { unfold dt. pose proof (rate_pos V c mx t0 t HV Hc Hm H0 Ht) as R1.
      assert (R2 : rate V c mx t0 t <= mx) by (unfold rate; apply Rmin_r).
      pose proof (ln_inv_pos q Hq) as L1.
      assert (L2 : ln (1 / q) <= ln (1 / z 0%nat)).
      { unfold Rdiv. rewrite !Rmult_1_l. destruct (Req_dec (z 0%nat) q) as [->|]; [lra|].
        left. apply ln_increasing; [apply Rinv_0_lt_compat; lra|]. apply Rinv_lt_contravar; [apply Rmult_lt_0_compat; lra|lra]. }
      apply Rle_trans with (ln (1 / q) / rate V c mx t0 t).
      - unfold Rdiv. apply Rmult_le_compat_l; [lra|]. apply Rinv_le_contravar; lra.
      - unfold Rdiv. apply Rmult_le_compat_r; [|exact L2]. left. apply Rinv_0_lt_compat. exact R1. }
    pose proof (ln_inv_pos q Hq) as L1. pose proof (Rdiv_lt_0_compat _ _ L1 Hm) as G0.
    rewrite S_INR in Hs.
    destruct (IH (fun i => z (S i)) (t + dt) Hq (fun i => Hz (S i)) ltac:(lra) ltac:(lra)) as [l ->].
    cbn [bind]. eauto.
Qed.

Lemma loop_more : forall fuel z t l fuel', poisson_loop fuel V c mx t0 stop z t = Some l -> (fuel <= fuel')%nat ->
  poisson_loop fuel' V c mx t0 stop z t = Some l.
Proof.
  induction fuel as [|n IH]; intros z t l fuel' H Hf; cbn [poisson_loop] in H; destruct (Rlt_dec t stop) as [L|L] eqn:D; try discriminate.
  - destruct fuel'; cbn [poisson_loop]; rewrite D; exact H.
  - destruct fuel' as [|m]; [lia|]. cbn [poisson_loop]. rewrite D. destruct (Req_EM_T _ _); [discriminate|].
    destruct (poisson_loop n _ _ _ _ _ _ _) as [r|] eqn:E; cbn [bind] in H; [|discriminate].
    rewrite (IH _ _ _ m E) by lia. exact H.
  - destruct fuel'; cbn [poisson_loop]; rewrite D; exact H.
Qed.
End Loop.

(** The first point is at the given time, the points increase, all but the last are in the interval of
    the given duration and the last is just past it; and each gap follows from its draw: it exceeds [s]
    exactly when the draw is below [exp (- mu s)], that is, it is exponential with the rate [mu]. *)
Theorem C93_times : forall fuel V duration c mx t0 z t l, 0 < V -> 0 < c -> 0 < mx -> 0 < t0 -> 0 <= duration ->
  (forall i, 0 < z i < 1) -> poisson_sequence fuel V duration c mx (Some t0) z = Some (t, l) ->
  t = t0 /\ nth_error l 0 = Some t0 /\ t0 + duration <= last l 0 /\
  forall j a b, consecutive l j a b ->
    t0 <= a < t0 + duration /\ a < b /\
    forall s, 0 <= s -> (s < b - a <-> z j < exp (- (Rmin (4 * PI * c ^ 3 / V * (t0 + a) ^ 2) mx * s))).
Proof.
  intros fuel V D c mx t0 z t l HV Hc Hm H0 HD Hz H. unfold poisson_sequence, start_time in H.
  destruct (poisson_loop _ _ _ _ _ _ _ _) as [r|] eqn:E; cbn [bind] in H; [|discriminate].
  assert (t = t0 /\ l = r) as [-> ->] by (split; congruence). clear H.
  destruct (loop_steps V c mx t0 (t0 + D) HV Hc Hm H0 fuel z t0 r Hz (Rle_refl _) E) as [S1 S2].
  split; [reflexivity|]. split; [destruct (loop_head _ _ _ _ _ _ _ _ _ E) as [r' ->]; reflexivity|].
  split; [exact S2|]. intros j a b Hj. destruct (S1 j a b Hj) as (A & B & G).
  split; [exact A|]. split; [exact G|]. intros s Hs.
  pose proof (rate_pos V c mx t0 a HV Hc Hm H0 (proj1 A)) as Rp.
  change (Rmin (4 * PI * c ^ 3 / V * (t0 + a) ^ 2) mx) with (rate V c mx t0 a).
  set (mu := rate V c mx t0 a) in *. pose proof (Hz j) as Zj.
  replace (b - a) with (ln (1 / z j) / mu) by lra.
  assert (L : ln (1 / z j) = - ln (z j)) by (unfold Rdiv; rewrite Rmult_1_l; apply ln_Rinv; lra). rewrite L.
  split; intro Q.
  - apply Rmult_lt_compat_r with (r := mu) in Q; [|exact Rp]. unfold Rdiv in Q. rewrite Rmult_assoc, Rinv_l in Q by lra.
    rewrite <- (exp_ln (z j)) by lra. apply exp_increasing. lra.
  - rewrite <- (exp_ln (z j)) in Q by lra. apply exp_lt_inv in Q.
    apply Rmult_lt_reg_r with mu; [exact Rp|]. unfold Rdiv. rewrite Rmult_assoc, Rinv_l by lra. lra.
Qed.

(** It always ends when the draws keep away from one (floating point numbers below one do). *)
Theorem C93_ends : forall V duration c mx t0 z q, 0 < V -> 0 < c -> 0 < mx -> 0 < t0 -> 0 < q < 1 ->
  (forall i, 0 < z i <= q) -> exists fuel l, forall fuel', (fuel <= fuel')%nat ->
    poisson_sequence fuel' V duration c mx (Some t0) z = Some (t0, l).
Proof.
  intros V D c mx t0 z q HV Hc Hm H0 Hq Hz.
  pose proof (Rdiv_lt_0_compat _ _ (ln_inv_pos q Hq) Hm) as G. set (g := ln (1 / q) / mx) in *.
  destruct (nat_above (D / g)) as [n Hn]. exists n.
  destruct (loop_ends V c mx t0 (t0 + D) HV Hc Hm H0 q n z t0 Hq Hz (Rle_refl _)) as [l Hl].
  { fold g. apply Rmult_lt_compat_r with (r := g) in Hn; [|exact G]. unfold Rdiv in Hn. rewrite Rmult_assoc, Rinv_l in Hn by lra. lra. }
  exists l. intros f Hf. unfold poisson_sequence, start_time.
  rewrite (loop_more V c mx t0 (t0 + D) n z t0 l f Hl Hf). reflexivity.
Qed.

(** The default start is the positive solution of the equation of the reference (Schroeder, 5.3.4). *)
Theorem C93_default_start : forall fuel V duration c mx z t l, 0 < V -> 0 < c ->
  poisson_sequence fuel V duration c mx None z = Some (t, l) -> 0 < t /\ 4 * PI * (c * t) ^ 3 / V = 2 * ln 2.
Proof.
  intros fuel V D c mx z t l HV Hc H. unfold poisson_sequence, start_time in H.
  set (p := Rpower (2 * ln 2 / fpcv V c) (/ 3)) in *.
  destruct (poisson_loop _ _ _ _ _ _ _ _) as [r|]; cbn [bind] in H; [|discriminate].
  assert (t = p) as -> by congruence. clear H. unfold p. clear p. split; [apply exp_pos|].
  assert (F : 0 < fpcv V c). { unfold fpcv. apply Rdiv_lt_0_compat; [|exact HV]. pose proof PI_RGT_0. apply Rmult_lt_0_compat; [lra|apply pow_lt; exact Hc]. }
  assert (L2 : 0 < ln 2) by (rewrite <- ln_1; apply ln_increasing; lra).
  assert (P : 0 < 2 * ln 2 / fpcv V c) by (apply Rdiv_lt_0_compat; lra).
  assert (Q : Rpower (2 * ln 2 / fpcv V c) (/ 3) ^ 3 = 2 * ln 2 / fpcv V c).
  { rewrite <- Rpower_pow by apply exp_pos. rewrite Rpower_mult. replace (/ 3 * INR 3) with 1 by (cbn; field). apply Rpower_1. exact P. }
  rewrite Rpow_mult_distr, Q. unfold fpcv in *. pose proof PI_RGT_0.
  assert (c ^ 3 <> 0) by (apply pow_nonzero; lra). field. repeat split; try lra; assumption.
Qed.

(** The rate of reflections arriving at time [t] in a room is [4 pi c^3 t^2 / V]. The rate used is not
    that one, even when it is below the maximum: the start time is added to the time once more. *)
Theorem C93_rate_refuted : exists V c mx t0 t, 0 < V /\ 0 < c /\ 0 < t0 <= t /\
  4 * PI * c ^ 3 * t ^ 2 / V < mx /\ rate V c mx t0 t <> 4 * PI * c ^ 3 * t ^ 2 / V.
Proof.
  exists (4 * PI), 1, 100, 1, 1. pose proof PI_RGT_0.
  assert (E : 4 * PI * 1 ^ 3 * 1 ^ 2 / (4 * PI) = 1) by (field; lra).
  rewrite E. repeat split; try lra.
  unfold rate, fpcv. replace (4 * PI * 1 ^ 3 / (4 * PI) * (1 + 1) ^ 2) with 4 by (field; lra).
  rewrite Rmin_left by lra. lra.
Qed.

(** A run: draws that make every gap one half. *)
Example C93_ex : exists l, poisson_sequence 3 (PI / 2) 1 1 2 (Some 1) (fun _ => exp (-1)) = Some (1, l) /\ l = [1; 1 + / 2; 1 + / 2 + / 2].
Proof.
  assert (R0 : forall t, 1 <= t -> rate (PI / 2) 1 2 1 t = 2).
  { intros t Ht. unfold rate, fpcv. apply Rmin_right. pose proof PI_RGT_0.
    replace (4 * PI * 1 ^ 3 / (PI / 2)) with 8 by (field; lra). nra. }
  assert (E : ln (1 / exp (-1)) = 1). { unfold Rdiv. rewrite Rmult_1_l, <- exp_Ropp, ln_exp. ring. }
  eexists. split; [|reflexivity]. unfold poisson_sequence, start_time.
  cbn [poisson_loop]. destruct (Rlt_dec 1 (1 + 1)); [|lra].
  destruct (Req_EM_T _ _) as [Z|_]; [pose proof (exp_pos (-1)); lra|].
  rewrite E, (R0 1) by lra. replace (1 / 2) with (/ 2) by field.
  destruct (Rlt_dec (1 + / 2) (1 + 1)); [|lra].
  rewrite (R0 (1 + / 2)) by lra. replace (1 / 2) with (/ 2) by field.
  destruct (Rlt_dec (1 + / 2 + / 2) (1 + 1)); [lra|]. reflexivity.
Qed.

(** ** C94: directions and sequence *)

(** The weights of the directions: the energies of the bin, or all the same if there is (almost) none. *)
Definition weights (col : vec) : vec := if Rlt_dec tiny (Rsum col) then col else map (fun _ => 1) col.
(** Direction [r] drawn with the number [z] from weights [w]: cumulative distribution inversion. *)
Definition drawn (w : vec) (z : R) (r : nat) : Prop :=
  (r < length w)%nat /\ Rsum (firstn r w) < z * Rsum w <= Rsum (firstn (S r) w).

Lemma count_below : forall z (f : nat -> R) n a, (forall j k, (j <= k)%nat -> f j <= f k) ->
  let r := length (filter (fun v => if Rlt_dec v z then true else false) (map f (seq a n))) in
  (r <= n)%nat /\ (forall k, (k < r)%nat -> f (a + k)%nat < z) /\ (forall k, (r <= k < n)%nat -> z <= f (a + k)%nat).
Proof.
  intros z f n. induction n as [|n IH]; intros a Hf; cbn [seq map filter].
  - cbn. repeat split; intros; lia.
  - destruct (IH (S a) Hf) as (I1 & I2 & I3). destruct (Rlt_dec (f a) z) as [L|L]; cbn [length].
    + split; [lia|]. split.
      * intros [|k] Hk; [now rewrite Nat.add_0_r|]. replace (a + S k)%nat with (S a + k)%nat by lia. apply I2. lia.
      * intros [|k] Hk; [lia|]. replace (a + S k)%nat with (S a + k)%nat by lia. apply I3. lia.
    + split; [lia|]. split.
      * intros k Hk. specialize (I2 k Hk). pose proof (Hf a (S a + k)%nat ltac:(lia)). lra.
      * intros k Hk. pose proof (Hf a (a + k)%nat ltac:(lia)). lra.
Qed.

Lemma Rsum_firstn_S : forall w r, Rsum (firstn (S r) w) = Rsum (firstn r w) + nth r w 0.
Proof.
  induction w as [|x w IH]; intros r.
  - rewrite !firstn_nil. destruct r; unfold Rsum; cbn; lra.
  - destruct r as [|r]; [unfold Rsum; cbn; lra|].
    change (Rsum (firstn (S (S r)) (x :: w))) with (x + Rsum (firstn (S r) w)). rewrite IH.
    change (Rsum (firstn (S r) (x :: w))) with (x + Rsum (firstn r w)). cbn [nth]. lra.
Qed.

Lemma weights_length : forall col, length (weights col) = length col.
Proof. intros. unfold weights. destruct (Rlt_dec _ _); [reflexivity|apply map_length]. Qed.

Lemma weights_nonneg : forall col k, Forall (fun x => 0 <= x) col -> 0 <= nth k (weights col) 0.
Proof.
  intros col k H. unfold weights.
  assert (G : forall l : vec, Forall (fun x => 0 <= x) l -> 0 <= nth k l 0).
  { intros l Hl. destruct (Nat.lt_ge_cases k (length l)) as [L|L].
    - rewrite Forall_forall in Hl. apply Hl. now apply nth_In.
    - rewrite nth_overflow by lia. lra. }
  destruct (Rlt_dec _ _); apply G; auto. apply Forall_map. eapply Forall_impl; [|exact H]. cbn. intros. lra.
Qed.

Lemma weights_total : forall col, col <> [] -> 0 < Rsum (weights col).
Proof.
  intros col H. unfold weights. destruct (Rlt_dec _ _) as [L|L].
  - assert (0 < tiny) by (unfold tiny; apply Rinv_0_lt_compat; apply pow_lt; lra). lra.
  - assert (E : forall l : vec, Rsum (map (fun _ => 1) l) = INR (length l)).
    { induction l as [|x l IH]; [reflexivity|]. cbn [map length]. rewrite S_INR.
      change (Rsum (1 :: map (fun _ => 1) l)) with (1 + Rsum (map (fun _ => 1) l)). rewrite IH. lra. }
    rewrite E. destruct col; [congruence|]. cbn [length]. rewrite S_INR. pose proof (pos_INR (length col)). lra.
Qed.

Lemma cdf_eq : forall col, cdf col = map (fun k => Rsum (firstn (S k) (weights col)) / Rsum (weights col)) (seq 0 (length col)).
Proof.
  intros col. unfold cdf. fold (weights col). unfold cumsum. rewrite map_map, weights_length. reflexivity.
Qed.

Lemma choose_drawn : forall col z, col <> [] -> Forall (fun x => 0 <= x) col -> 0 < z <= 1 ->
  drawn (weights col) z (choose z col).
Proof.
  intros col z Hne Hp Hz. set (w := weights col). pose proof (weights_total col Hne) as T. fold w in T.
  assert (Mw : forall j k, (j <= k)%nat -> Rsum (firstn j w) <= Rsum (firstn k w)).
  { intros j k Hjk. induction Hjk as [|m Hm IH]; [lra|]. rewrite Rsum_firstn_S.
    pose proof (weights_nonneg col m Hp). fold w in H. lra. }
  set (f := fun k => Rsum (firstn (S k) w) / Rsum w).
  assert (Mf : forall j k, (j <= k)%nat -> f j <= f k).
  { intros j k Hjk. unfold f, Rdiv. apply Rmult_le_compat_r; [left; now apply Rinv_0_lt_compat|]. apply Mw. lia. }
  destruct (count_below z f (length col) 0 Mf) as (I1 & I2 & I3).
  assert (E : length (filter (fun v => if Rlt_dec v z then true else false) (map f (seq 0 (length col)))) = choose z col)
    by (unfold choose; rewrite cdf_eq; reflexivity).
  rewrite E in *. set (r := choose z col) in *. cbn [Nat.add] in *.
  assert (Hn : (0 < length col)%nat) by (destruct col; [congruence|cbn; lia]).
  assert (Lw : length w = length col) by apply weights_length.
  assert (Hr : (r < length col)%nat).
  { destruct (Nat.eq_dec r (length col)) as [Q|Q]; [|lia].
    specialize (I2 (length col - 1)%nat ltac:(lia)). unfold f in I2.
    replace (S (length col - 1)) with (length w) in I2 by lia. rewrite firstn_all in I2.
    unfold Rdiv in I2. rewrite Rinv_r in I2 by lra. lra. }
  split; [lia|]. split.
  - destruct r as [|r']; [cbn [firstn]; unfold Rsum at 1; cbn [fold_right]; apply Rmult_lt_0_compat; lra|].
    specialize (I2 r' ltac:(lia)). unfold f in I2. apply Rmult_lt_compat_r with (r := Rsum w) in I2; [|exact T].
    unfold Rdiv in I2. rewrite Rmult_assoc, Rinv_l in I2 by lra. lra.
  - specialize (I3 r ltac:(lia)). unfold f in I3. apply Rmult_le_compat_r with (r := Rsum w) in I3; [|lra].
    unfold Rdiv in I3. rewrite Rmult_assoc, Rinv_l in I3 by lra. lra.
Qed.

(** The direction of a delta is drawn from the energies in its column of the histogram: exactly the
    numbers of an interval of length [energy / total] give the direction, so a direction without energy
    is not chosen (the uniform distribution is used when there is no energy in the column). *)
Theorem C94_choice : forall col z r, col <> [] -> Forall (fun x => 0 <= x) col -> 0 < z <= 1 ->
  (choose z col = r <-> drawn (weights col) z r) /\ (drawn (weights col) z r -> 0 < nth r (weights col) 0).
Proof.
  intros col z r Hne Hp Hz. pose proof (choose_drawn col z Hne Hp Hz) as D. set (w := weights col) in *.
  assert (Mw : forall j k, (j <= k)%nat -> Rsum (firstn j w) <= Rsum (firstn k w)).
  { intros j k Hjk. induction Hjk as [|m Hm IH]; [lra|]. rewrite Rsum_firstn_S.
    pose proof (weights_nonneg col m Hp). fold w in H. lra. }
  split.
  - split; [intros <-; exact D|]. intros (R1 & R2 & R3). destruct D as (D1 & D2 & D3). set (q := choose z col) in *.
    destruct (Nat.lt_trichotomy q r) as [L|[L|L]]; [|exact L|].
    + pose proof (Mw (S q) r ltac:(lia)). lra.
    + pose proof (Mw (S r) q ltac:(lia)). lra.
  - intros (R1 & R2 & R3). rewrite Rsum_firstn_S in R3. lra.
Qed.

(** With energies 1, 0, 3 the draw 1/2 gives the third direction. *)
Example C94_choice_ex : choose (1 / 2) [1; 0; 3] = 2%nat.
Proof.
  assert (W : weights [1; 0; 3] = [1; 0; 3]).
  { unfold weights. destruct (Rlt_dec _ _) as [Q|Q]; [reflexivity|]. exfalso. apply Q. unfold tiny, Rsum; cbn [fold_right].
    apply Rlt_le_trans with (/ 1); [|lra]. apply Rinv_lt_contravar; [rewrite Rmult_1_l; apply pow_lt; lra|]. apply Rlt_pow_R1; [lra|lia]. }
  apply C94_choice; [discriminate|repeat constructor; lra|lra|]. rewrite W. split; [cbn; lia|]. unfold Rsum; cbn. lra.
Qed.

Lemma store_nth : forall (l : vec) i v, (i < length l)%nat -> exists l', store l i v = Some l' /\ length l' = length l /\
  forall k, nth k l' 0 = if Nat.eqb k i then v else nth k l 0.
Proof.
  induction l as [|x l IH]; intros [|i] v H; cbn [length] in H; try lia; cbn [store].
  - exists (v :: l). split; [reflexivity|]. split; [reflexivity|]. intros [|k]; reflexivity.
  - destruct (IH i v ltac:(lia)) as (l' & -> & L & N). exists (x :: l'). split; [reflexivity|]. split; [cbn; lia|].
    intros [|k]; cbn; [reflexivity|apply N].
Qed.

Lemma scatter_spec : forall idx values buf, length idx = length values -> (forall i, In i idx -> (i < length buf)%nat) ->
  exists b, scatter buf idx values = Some b /\ length b = length buf /\
  forall k, (In k idx -> In (nth k b 0) values) /\ (~ In k idx -> nth k b 0 = nth k buf 0).
Proof.
  induction idx as [|i idx IH]; intros [|v values] buf Hl Hi; cbn [length] in Hl; try lia; cbn [scatter].
  - exists buf. split; [reflexivity|]. split; [reflexivity|]. intro k. split; [intros []|auto].
  - destruct (store_nth buf i v (Hi i (or_introl eq_refl))) as (b1 & -> & L1 & N1). cbn [bind].
    destruct (IH values b1 ltac:(lia)) as (b & -> & L & N). { intros j Hj. rewrite L1. apply Hi. now right. }
    exists b. split; [reflexivity|]. split; [lia|]. intro k. destruct (N k) as [N2 N3]. split.
    + intros Hk. destruct (in_dec Nat.eq_dec k idx) as [J|J]; [right; auto|]. destruct Hk as [->|Hk]; [|contradiction].
      left. rewrite (N3 J), N1, Nat.eqb_refl. reflexivity.
    + intros Hk. rewrite N3 by (intro; apply Hk; now right). rewrite N1.
      destruct (Nat.eqb_spec k i) as [->|]; [|reflexivity]. exfalso. apply Hk. now left.
Qed.

(** A list of signs. *)
Definition signs (l : vec) : Prop := Forall (fun s => s = 1 \/ s = -1) l.
(** The number of samples with a delta among the [2 h] samples around sample [i]. *)
Definition crowd (idx : list nat) (h i : nat) : nat :=
  length (filter (fun k => existsb (Nat.eqb k) idx) (seq (i - h) (i + h - (i - h)))).

Lemma occupied_in : forall idx k, existsb (Nat.eqb k) idx = true <-> In k idx.
Proof.
  intros. rewrite existsb_exists. split.
  - intros (x & Hx & E). apply Nat.eqb_eq in E. now subst.
  - intros H. exists k. split; [exact H|apply Nat.eqb_refl].
Qed.

Lemma Rsum_indicator : forall (p : nat -> bool) a l, Rsum (map (fun k => if p k then a else 0) l) = a * INR (length (filter p l)).
Proof.
  intros p a. induction l as [|x l IH]; [unfold Rsum; cbn; lra|]. cbn [map filter].
  change (Rsum ((if p x then a else 0) :: map (fun k => if p k then a else 0) l)) with ((if p x then a else 0) + Rsum (map (fun k => if p k then a else 0) l)).
  rewrite IH. destruct (p x); [cbn [length]; rewrite S_INR; lra|lra].
Qed.

Lemma nth_repeat_in : forall (v : R) n k, (k < n)%nat -> nth k (repeat v n) 0 = v.
Proof. intros v n. induction n; intros [|k] H; cbn; try lia; auto. apply IHn. lia. Qed.

Lemma conv_length : forall h x, h <> [] -> x <> [] -> length (conv h x) = (length h + length x - 1)%nat.
Proof. intros [|a h] [|b x] H1 H2; try congruence. unfold conv. now rewrite map_length, seq_length. Qed.

Lemma rolling_power_nth : forall x h i, x <> [] -> (0 < h)%nat -> (i < length x)%nat ->
  nth i (seq_rolling_power x h 2) 0 =
  Rsum (map (fun k => nth k x 0 ^ 2 * (if ((i <? k + h + 1) && (k <? i + h))%nat then / 2 else 0)) (seq 0 (length x))).
Proof.
  intros x h i Hx Hh Hi. unfold seq_rolling_power, conv_same.
  set (y := map (fun v => v ^ 2) x). set (f := repeat (1 / INR 2) (2 * h)).
  assert (Ly : length y = length x) by apply map_length.
  assert (Lf : length f = (2 * h)%nat) by apply repeat_length.
  assert (Ny : y <> []) by (intro E; apply Hx; destruct x; [reflexivity|discriminate]).
  assert (Nf : f <> []) by (intro E; rewrite E in Lf; cbn in Lf; lia).
  assert (A : forall (l : vec) n a, (n < a)%nat -> nth n (firstn a l) 0 = nth n l 0).
  { induction l as [|u l IHl]; intros [|n] [|a] H; cbn; try lia; auto. apply IHl. lia. }
  assert (B : forall (l : vec) n a, nth n (skipn a l) 0 = nth (a + n) l 0).
  { induction l as [|u l IHl]; intros n [|a]; cbn; auto. destruct n; reflexivity. }
  rewrite A by lia. rewrite B, Lf.
  assert (E : ((2 * h - 1) / 2 = h - 1)%nat).
  { symmetry. apply (Nat.div_unique _ _ _ 1); lia. }
  rewrite E, conv_nth by auto. rewrite Ly. apply Rsum_map_ext. intros k Hk. apply in_seq in Hk.
  assert (Q : nth k y 0 = nth k x 0 ^ 2).
  { unfold y. rewrite (nth_indep _ 0 (0 ^ 2)) by (rewrite map_length; lia). now rewrite (map_nth (fun v => v ^ 2)). }
  rewrite Q. f_equal. unfold at_time.
  destruct (Z.ltb_spec (Z.of_nat (h - 1 + i) - Z.of_nat k) 0) as [L|L].
  - destruct (Nat.ltb_spec k (i + h)); [lia|]. now rewrite andb_false_r.
  - destruct (Nat.ltb_spec k (i + h)) as [K|K]; [|lia].
    destruct (Nat.ltb_spec i (k + h + 1)) as [J|J]; cbn [andb].
    + unfold f. rewrite nth_repeat_in by lia. cbn [INR]. lra.
    + rewrite nth_overflow; [reflexivity|]. rewrite Lf. lia.
Qed.

(** The local power of the sequence of signs at a sample is half of the crowd there. *)
Lemma rolling_power_crowd : forall b idx h i, b <> [] -> (0 < h)%nat -> (i < length b)%nat ->
  (forall k, In k idx -> (k < length b)%nat) ->
  (forall k, (In k idx -> nth k b 0 = 1 \/ nth k b 0 = -1) /\ (~ In k idx -> nth k b 0 = 0)) ->
  nth i (seq_rolling_power b h 2) 0 = INR (crowd idx h i) / 2.
Proof.
  intros b idx h i Hb Hh Hi Hin Hs. rewrite rolling_power_nth by auto.
  set (p := fun k => (existsb (Nat.eqb k) idx && ((i <? k + h + 1) && (k <? i + h))%nat)%bool).
  transitivity (Rsum (map (fun k => if p k then / 2 else 0) (seq 0 (length b)))).
  - apply Rsum_map_ext. intros k _. unfold p. destruct (Hs k) as [H1 H2].
    destruct (existsb (Nat.eqb k) idx) eqn:O; cbn [andb].
    + apply occupied_in in O. destruct (H1 O) as [-> | ->]; destruct ((_ <? _)%nat && (_ <? _)%nat)%bool; lra.
    + rewrite H2; [lra|]. intro Q. apply occupied_in in Q. congruence.
  - rewrite Rsum_indicator. unfold Rdiv. rewrite Rmult_comm. f_equal. f_equal. unfold crowd.
    apply Permutation.Permutation_length. apply Permutation.NoDup_Permutation.
    + apply NoDup_filter, seq_NoDup.
    + apply NoDup_filter, seq_NoDup.
    + intro k. rewrite !filter_In, !in_seq. unfold p. rewrite !andb_true_iff, !Nat.ltb_lt.
      split.
      * intros [? (O & ? & ?)]. split; [lia|exact O].
      * intros [? O]. apply occupied_in in O as O'. apply Hin in O'. repeat split; try lia. exact O.
Qed.

Lemma crowd_pos : forall idx h i, In i idx -> (0 < h)%nat -> (1 <= crowd idx h i)%nat.
Proof.
  intros idx h i Hi Hh. unfold crowd.
  assert (I : In i (filter (fun k => existsb (Nat.eqb k) idx) (seq (i - h) (i + h - (i - h))))).
  { apply filter_In. split; [apply in_seq; lia|]. now apply occupied_in. }
  destruct (filter _ _); [destruct I|cbn; lia].
Qed.

Lemma add_at_spec : forall buf i x k, (k < length buf)%nat ->
  nth k (add_at buf i x) 0 = nth k buf 0 + at_time x (Z.of_nat k - Z.of_nat i).
Proof.
  intros buf i x k H. unfold add_at. rewrite nth_map_seq by exact H. f_equal. unfold at_time.
  destruct (Nat.leb_spec i k); destruct (Z.ltb_spec (Z.of_nat k - Z.of_nat i) 0); try lia; [|reflexivity].
  f_equal. lia.
Qed.
Lemma add_at_length : forall buf i x, length (add_at buf i x) = length buf.
Proof. intros. unfold add_at. now rewrite map_length, seq_length. Qed.

Lemma fold_add : forall (f : nat -> nat * vec) js buf,
  let r := fold_left (fun b j => let '(i, x) := f j in add_at b i x) js buf in
  length r = length buf /\ forall k, (k < length buf)%nat ->
    nth k r 0 = nth k buf 0 + Rsum (map (fun j => at_time (snd (f j)) (Z.of_nat k - Z.of_nat (fst (f j)))) js).
Proof.
  intros f js. induction js as [|j js IH]; intros buf; cbn [fold_left map].
  - split; [reflexivity|]. intros k Hk. unfold Rsum; cbn. lra.
  - destruct (f j) as [i x] eqn:E. destruct (IH (add_at buf i x)) as [I1 I2]. rewrite add_at_length in *.
    split; [exact I1|]. intros k Hk. rewrite I2 by exact Hk. rewrite add_at_spec by exact Hk.
    cbn [fst snd]. match goal with |- _ = _ + Rsum (?a :: ?l) => change (Rsum (a :: l)) with (a + Rsum l) end. lra.
Qed.

(** Draws for [n] deltas: two rows of signs and a row of numbers of (0, 1]. *)
Definition well_drawn (n : nat) (d : draws) : Prop :=
  length (d_sign1 d) = n /\ length (d_dir d) = n /\ length (d_sign2 d) = n /\
  signs (d_sign1 d) /\ signs (d_sign2 d) /\ Forall (fun z => 0 < z <= 1) (d_dir d).
(** A table of [rows] rows of [n] energies. *)
Definition energies (rows n : nat) (h : list vec) : Prop :=
  length h = rows /\ Forall (fun r => length r = n /\ Forall (fun x => 0 <= x) r) h.
(** Times in order, from [t0]. *)
Definition in_order (t0 : R) (times : vec) : Prop :=
  times <> [] /\ Forall (fun t => t0 <= t) times /\
  forall j k, (j <= k < length times)%nat -> nth j times 0 <= nth k times 0.

Lemma nth_forall : forall (P : R -> Prop) l k, Forall P l -> (k < length l)%nat -> P (nth k l 0).
Proof. intros P l k H Hk. rewrite Forall_forall in H. apply H. now apply nth_In. Qed.

Lemma last_nth : forall {A} (l : list A) d, last l d = nth (length l - 1) l d.
Proof.
  intros A l d. induction l as [|a l IH]; [reflexivity|]. destruct l as [|b l]; [reflexivity|].
  cbn [last length] in *. rewrite IH. cbn [length]. now replace (S (S (length l)) - 1)%nat with (S (S (length l) - 1)) by lia.
Qed.

Lemma index_le : forall fs a b, 0 < fs -> 0 <= a <= b -> (delta_index fs a <= delta_index fs b)%nat.
Proof.
  intros fs a b Hf Hab. unfold delta_index. apply Z2Nat.inj_le.
  - rewrite <- (Zfloor_unique 0 0) by (cbn; lra). apply Zfloor_le. apply Rmult_le_pos; lra.
  - rewrite <- (Zfloor_unique 0 0) by (cbn; lra). apply Zfloor_le. apply Rmult_le_pos; lra.
  - apply Zfloor_le. apply Rmult_le_compat_r; lra.
Qed.

Lemma nth_indices : forall fs times j, (j < length times)%nat -> nth j (indices fs times) 0%nat = delta_index fs (nth j times 0).
Proof.
  intros. unfold indices. rewrite (nth_indep _ 0%nat (delta_index fs 0)) by (rewrite map_length; lia).
  now rewrite (map_nth (delta_index fs)).
Qed.

Lemma index_max : forall fs t0 times i, 0 < fs -> 0 <= t0 -> in_order t0 times -> In i (indices fs times) ->
  (i <= last (indices fs times) 0%nat)%nat.
Proof.
  intros fs t0 times i Hf H0 (Hne & Hge & Hs) Hi. destruct (In_nth _ _ 0%nat Hi) as (j & Hj & <-).
  assert (L : length (indices fs times) = length times) by apply map_length. rewrite L in Hj.
  rewrite last_nth, L, !nth_indices by lia. apply index_le; [exact Hf|].
  split; [|apply Hs; lia]. pose proof (nth_forall _ _ j Hge Hj). cbn in H. lra.
Qed.

Lemma binary_spec : forall fs t0 times sg, 0 < fs -> 0 <= t0 -> in_order t0 times -> length sg = length times -> signs sg ->
  exists b, binary_sequence fs times sg = Some b /\ length b = (last (indices fs times) 0 + 1)%nat /\
  (forall k, In k (indices fs times) -> (k < length b)%nat) /\
  (forall k, (In k (indices fs times) -> nth k b 0 = 1 \/ nth k b 0 = -1) /\ (~ In k (indices fs times) -> nth k b 0 = 0)).
Proof.
  intros fs t0 times sg Hf H0 Ho Hl Hsg. pose proof Ho as (Hne & _ & _).
  set (idx := indices fs times). set (L := (last idx 0 + 1)%nat).
  assert (Hmax : forall i, In i idx -> (i < L)%nat).
  { intros i Hi. pose proof (index_max fs t0 times i Hf H0 Ho Hi). fold idx in H. unfold L. lia. }
  destruct (scatter_spec idx sg (repeat 0 L)) as (b & Eb & Lb & Nb).
  { unfold idx, indices. rewrite map_length. lia. } { rewrite repeat_length. exact Hmax. }
  rewrite repeat_length in Lb. exists b. split.
  - unfold binary_sequence. destruct times; [congruence|]. exact Eb.
  - split; [exact Lb|]. split; [rewrite Lb; exact Hmax|]. intro k. destruct (Nb k) as [N1 N2]. split.
    + intros Hk. specialize (N1 Hk). unfold signs in Hsg. rewrite Forall_forall in Hsg. auto.
    + intros Hk. rewrite (N2 Hk). apply nth_repeat.
Qed.

(** The sequence is a sum of deltas: one for each time, at its sample, with its sign, through the
    response of its direction, and scaled by the crowd of samples around it. *)
Theorem C94_sequence : forall fs t0 bin_size times response hist d n_taps n_bins,
  0 < fs -> 0 <= t0 -> 1 <= bin_size * fs -> in_order t0 times -> well_drawn (length times) d ->
  response <> [] -> Forall (fun r => length r = n_taps) response -> energies (length response) n_bins hist -> (0 < n_bins)%nat ->
  let idx := indices fs times in
  let h := Z.to_nat (Zfloor (bin_size * fs)) in
  exists x dirs, directional_sequence fs t0 bin_size times response hist d = Some x /\
    length x = (last idx 0 + n_taps + 1)%nat /\
    (forall j, (j < length times)%nat ->
       drawn (weights (column hist (delta_bin t0 bin_size n_bins (nth j times 0)))) (nth j (d_dir d) 0) (nth j dirs 0%nat)) /\
    (forall j, (j < length times)%nat -> (1 <= crowd idx h (nth j idx 0%nat))%nat) /\
    forall k, nth k x 0 = Rsum (map (fun j =>
        nth j (d_sign2 d) 0 * sqrt (2 / INR (crowd idx h (nth j idx 0%nat))) *
        at_time (nth (nth j dirs 0%nat) response []) (Z.of_nat k - Z.of_nat (nth j idx 0%nat))) (seq 0 (length times))).
Proof.
  intros fs t0 bs times response hist d n_taps n_bins Hf H0 Hb Ho Hd Hr Hrt Hh Hn idx h.
  destruct Hd as (D1 & D2 & D3 & G1 & G2 & Gz). pose proof Ho as (Hne & Hge & Hs). destruct Hh as [Hh1 Hh2].
  assert (Hhne : hist <> []) by (intro E; subst hist; destruct response; [congruence|discriminate]).
  assert (Hh0 : length (nth 0 hist []) = n_bins).
  { destruct hist as [|r hist']; [congruence|]. cbn. inversion Hh2; subst. tauto. }
  assert (Hr0 : length (nth 0 response []) = n_taps).
  { destruct response as [|r rs]; [congruence|]. cbn. inversion Hrt; subst. reflexivity. }
  destruct (binary_spec fs t0 times (d_sign1 d) Hf H0 Ho D1 G1) as (b & Eb & Lb & Ib & Sb). fold idx in Lb, Ib, Sb.
  assert (Hh' : (0 < h)%nat).
  { unfold h. assert (1 <= Zfloor (bs * fs))%Z by (rewrite <- (Zfloor_unique 1 1) by (cbn; lra); now apply Zfloor_le). lia. }
  set (norm := power_norm (seq_rolling_power b h 2)).
  assert (Lidx : length idx = length times) by (unfold idx, indices; apply map_length).
  assert (Inj : forall j, (j < length times)%nat -> In (nth j idx 0%nat) idx) by (intros; apply nth_In; lia).
  assert (Bne : b <> []) by (intro E; rewrite E in Lb; cbn in Lb; lia).
  assert (Lp : length (seq_rolling_power b h 2) = length b).
  { unfold seq_rolling_power, conv_same. rewrite firstn_length, skipn_length, conv_length, map_length, repeat_length.
    - assert (((2 * h - 1) / 2 <= 2 * h - 1)%nat) by (apply Nat.div_le_upper_bound; lia). lia.
    - intro E; apply Bne; destruct b; [reflexivity|discriminate].
    - intro E. apply (f_equal (@length R)) in E. rewrite repeat_length in E. cbn in E. lia. }
  assert (Cj : forall j, (j < length times)%nat -> (1 <= crowd idx h (nth j idx 0%nat))%nat) by (intros; apply crowd_pos; auto).
  assert (Nj : forall j, (j < length times)%nat -> nth (nth j idx 0%nat) norm 0 = 2 / INR (crowd idx h (nth j idx 0%nat))).
  { intros j Hj. set (i := nth j idx 0%nat). pose proof (Ib i (Inj j Hj)) as Hi. unfold norm, power_norm.
    set (g := fun v => if Rlt_dec tiny v then 1 / v else 0).
    rewrite (nth_indep _ 0 (g 0)) by (rewrite map_length, Lp; exact Hi). rewrite (map_nth g).
    rewrite (rolling_power_crowd b idx h i) by auto. unfold g.
    pose proof (Cj j Hj) as C1. fold i in C1. apply le_INR in C1. cbn [INR] in C1.
    assert (T : tiny < / 2). { unfold tiny. apply Rinv_lt_contravar; [apply Rmult_lt_0_compat; [lra|apply pow_lt; lra]|].
      replace 2 with (2 ^ 1) by ring. apply Rlt_le_trans with (10 ^ 1); [lra|]. apply Rle_pow; [lra|lia]. }
    destruct (Rlt_dec _ _); [field; lra|lra]. }
  set (col j := column hist (delta_bin t0 bs n_bins (nth j times 0))).
  assert (Ccol : forall j, col j <> [] /\ Forall (fun x => 0 <= x) (col j)).
  { intro j. unfold col, column. split.
    - intro E. apply Hhne. destruct hist; [reflexivity|discriminate].
    - apply Forall_map. apply Forall_forall. intros row Hrow. rewrite Forall_forall in Hh2. destruct (Hh2 row Hrow) as [Lr Pr].
      apply (nth_forall _ _ _ Pr). rewrite Lr. unfold delta_bin. lia. }
  set (dirs := map (fun j => choose (nth j (d_dir d) 0) (col j)) (seq 0 (length times))).
  assert (Dj : forall j, (j < length times)%nat -> nth j dirs 0%nat = choose (nth j (d_dir d) 0) (col j)).
  { intros j Hj. unfold dirs. now rewrite nth_map_seq. }
  assert (Dr : forall j, (j < length times)%nat -> drawn (weights (col j)) (nth j (d_dir d) 0) (nth j dirs 0%nat)).
  { intros j Hj. rewrite Dj by exact Hj. destruct (Ccol j). apply choose_drawn; auto.
    apply (nth_forall _ _ _ Gz). lia. }
  assert (Lc : forall j, length (col j) = length response) by (intro; unfold col, column; rewrite map_length; exact Hh1).
  set (f := delta fs t0 bs response hist norm d times).
  destruct (fold_add f (seq 0 (length times)) (repeat 0 (last idx 0 + n_taps + 1)%nat)) as [F1 F2].
  rewrite repeat_length in F1, F2.
  set (x := fold_left (fun b j => let '(i, x) := f j in add_at b i x) (seq 0 (length times)) (repeat 0 (last idx 0 + n_taps + 1)%nat)) in *.
  exists x, dirs. split.
  { unfold directional_sequence. rewrite Eb. cbn [bind]. fold idx h norm. rewrite Hr0, Hh0.
    destruct (forallb _ _) eqn:Q; [reflexivity|]. exfalso.
    assert (forallb (fun j => (choose (nth j (d_dir d) 0%R) (column hist (delta_bin t0 bs n_bins (nth j times 0%R))) <? length response)%nat) (seq 0 (length times)) = true); [|congruence].
    apply forallb_forall. intros j Hj. apply in_seq in Hj. apply Nat.ltb_lt. fold (col j).
    rewrite <- Dj by lia. destruct (Dr j ltac:(lia)) as [W _]. rewrite weights_length, Lc in W. exact W. }
  split; [exact F1|]. split; [exact Dr|]. split; [exact Cj|]. intro k.
  assert (T : forall j, (j < length times)%nat ->
    at_time (snd (f j)) (Z.of_nat k - Z.of_nat (fst (f j))) =
    nth j (d_sign2 d) 0 * sqrt (2 / INR (crowd idx h (nth j idx 0%nat))) *
        at_time (nth (nth j dirs 0%nat) response []) (Z.of_nat k - Z.of_nat (nth j idx 0%nat))).
  { intros j Hj. unfold f, delta. cbn [fst snd]. rewrite <- (nth_indices fs times j Hj). fold idx.
    rewrite Nj by exact Hj. rewrite Hh0. fold (col j). rewrite <- Dj by exact Hj.
    set (taps := nth (nth j dirs 0%nat) response []). unfold at_time.
    destruct (Z.of_nat k - Z.of_nat (nth j idx 0%nat) <? 0)%Z; [lra|].
    set (q := Z.to_nat _). set (g := fun x0 => nth j (d_sign2 d) 0 * x0 * _).
    replace 0 with (g 0) at 1 by (unfold g; ring). rewrite (map_nth g). unfold g. ring. }
  destruct (Nat.lt_ge_cases k (last idx 0 + n_taps + 1)%nat) as [K|K].
  - rewrite F2 by exact K. rewrite nth_repeat, Rplus_0_l. apply Rsum_map_ext. intros j Hj. apply in_seq in Hj. apply T. lia.
  - rewrite nth_overflow by lia. symmetry. apply Rsum_map_zero. intros j Hj. apply in_seq in Hj.
    pose proof (index_max fs t0 times _ Hf H0 Ho (Inj j ltac:(lia))) as M. fold idx in M.
    unfold at_time. destruct (Z.ltb_spec (Z.of_nat k - Z.of_nat (nth j idx 0%nat)) 0); [lra|].
    rewrite (nth_overflow (nth (nth j dirs 0%nat) response [])); [lra|].
    assert (length (nth (nth j dirs 0%nat) response []) = n_taps).
    { rewrite Forall_forall in Hrt. apply Hrt. apply nth_In. destruct (Dr j ltac:(lia)) as [W _]. rewrite weights_length, Lc in W. exact W. }
    lia.
Qed.

(** The energy of a delta with a flat unit response: with [2 m] deltas around, each has the energy
    [1 / m], so that [m] of them have energy one in all. *)
Theorem C94_unit_energy : forall idx h i m, (0 < m)%nat -> crowd idx h i = (2 * m)%nat ->
  INR m * sqrt (2 / INR (crowd idx h i)) ^ 2 = 1.
Proof.
  intros idx h i m Hm E. rewrite E, mult_INR. apply lt_INR in Hm. cbn [INR] in *.
  rewrite <- Rsqr_pow2, Rsqr_sqrt; [field; lra|]. apply Rlt_le, Rdiv_lt_0_compat; lra.
Qed.

(** The sample of a delta is the one during which it arrives, and the column of the histogram is that of
    the time since the first arrival (the last column after the end). *)
Theorem C94_places : forall fs t0 bin_size n t, 0 < fs -> 0 <= t0 <= t -> 0 < bin_size -> (0 < n)%nat ->
  INR (delta_index fs t) <= t * fs < INR (delta_index fs t) + 1 /\
  let j := delta_bin t0 bin_size n t in
  (j < n)%nat /\ INR j * bin_size <= t - t0 /\ ((S j < n)%nat -> t - t0 < (INR j + 1) * bin_size).
Proof.
  intros fs t0 bs n t Hf Ht Hb Hn.
  assert (F : forall x, 0 <= x -> INR (Z.to_nat (Zfloor x)) <= x < INR (Z.to_nat (Zfloor x)) + 1).
  { intros x Hx. destruct (Zfloor_bounds x) as [F1 F2].
    assert (0 <= Zfloor x)%Z by (apply Z.lt_succ_r, lt_IZR; rewrite succ_IZR; lra).
    rewrite INR_IZR_INZ, Z2Nat.id by assumption. lra. }
  split; [apply F; nra|]. unfold delta_bin. set (q := (t - t0) / bs).
  assert (Hq : 0 <= q) by (unfold q; apply Rmult_le_pos; [lra|left; now apply Rinv_0_lt_compat]).
  assert (E : t - t0 = q * bs) by (unfold q; field; lra). destruct (F q Hq) as [F1 F2]. set (m := Z.to_nat (Zfloor q)) in *.
  cbv zeta. rewrite E. split; [lia|]. split.
  - apply Rmult_le_compat_r; [lra|]. apply Rle_trans with (INR m); [apply le_INR; lia|exact F1].
  - intro L. rewrite Nat.min_l by lia. apply Rmult_lt_compat_r; lra.
Qed.

(** The column of the histogram used for a delta is not the one of its time: the start time is
    subtracted. A delta can come from a direction from which no energy arrives in any bin. *)
Theorem C94_direction_refuted : exists fs t0 bin_size times response hist d x,
  well_drawn (length times) d /\ in_order t0 times /\
  directional_sequence fs t0 bin_size times response hist d = Some x /\
  (forall j, Rsum (column hist (Z.to_nat (Zfloor (nth j times 0 / bin_size)))) = 1 \/ (length times <= j)%nat) /\
  (forall r j, 0 < nth j (nth r hist []) 0 -> nth r response [] = [0]) /\
  exists k, nth k x 0 <> 0.
Proof.
  set (d := {| d_sign1 := [1]; d_dir := [3 / 4]; d_sign2 := [1] |}).
  assert (W : well_drawn 1 d). { repeat split; cbn; repeat constructor; auto; lra. }
  assert (O : in_order 1 [1]).
  { repeat split; [discriminate|repeat constructor; lra|]. intros j k Hjk. cbn [length] in Hjk.
    replace j with 0%nat by lia. replace k with 0%nat by lia. lra. }
  destruct (C94_sequence 1 1 1 [1] [[0]; [1]] [[0; 1]; [0; 0]] d 1%nat 2%nat) as (x & dirs & E & L & Dr & Cr & X);
    [lra|lra|lra|exact O|exact W|discriminate|repeat constructor| |lia|].
  { split; [reflexivity|]. repeat constructor; cbn; lra. }
  exists 1, 1, 1, [1], [[0]; [1]], [[0; 1]; [0; 0]], d, x.
  split; [exact W|]. split; [exact O|]. split; [exact E|]. split; [|split].
  - intros [|j]; [left|right; cbn; lia]. cbn [nth]. replace (1 / 1) with 1 by field.
    rewrite (Zfloor_unique 1 1) by (cbn; lra). change (Z.to_nat 1) with 1%nat. unfold column, Rsum; simpl. lra.
  - intros [|[|r]] j H; [reflexivity| |].
    + exfalso. revert H. destruct j as [|[|[|j]]]; cbn; lra.
    + exfalso. revert H. replace (nth (S (S r)) [[0; 1]; [0; 0]] []) with (@nil R) by (destruct r; reflexivity). destruct j; cbn; lra.
  - exists 1%nat. rewrite X. cbn [length seq map].
    assert (I : indices 1 [1] = [1%nat]).
    { unfold indices, delta_index. cbn [map]. rewrite Rmult_1_l, (Zfloor_unique 1 1) by (cbn; lra). reflexivity. }
    rewrite I in *. set (h := Z.to_nat (Zfloor (1 * 1))) in *.
    specialize (Dr 0%nat ltac:(cbn; lia)). specialize (Cr 0%nat ltac:(cbn; lia)). cbn [nth] in Dr, Cr.
    assert (B : delta_bin 1 1 2 1 = 0%nat).
    { unfold delta_bin. replace ((1 - 1) / 1) with 0 by field. rewrite (Zfloor_unique 0 0) by (cbn; lra). reflexivity. }
    rewrite B in Dr. replace (column [[0; 1]; [0; 0]] 0) with [0; 0] in Dr by reflexivity.
    assert (Wt : weights [0; 0] = [1; 1]).
    { unfold weights. destruct (Rlt_dec _ _) as [Q|Q]; [|reflexivity]. unfold Rsum in Q; cbn in Q.
      assert (0 < tiny) by (unfold tiny; apply Rinv_0_lt_compat; apply pow_lt; lra). lra. }
    rewrite Wt in Dr. cbn [d_dir nth d] in Dr. destruct Dr as (R1 & R2 & R3).
    assert (Hd1 : nth 0 dirs 0%nat = 1%nat).
    { cbn [length] in R1. destruct (nth 0 dirs 0%nat) as [|[|r]]; [|reflexivity|lia]. unfold Rsum in R3; cbn in R3. lra. }
    rewrite Hd1. cbn [nth d_sign2 d]. change (Z.of_nat 1 - Z.of_nat 1)%Z with 0%Z.
    apply le_INR in Cr. cbn [INR] in Cr.
    assert (P : 0 < sqrt (2 / INR (crowd [1%nat] h 1))) by (apply sqrt_lt_R0, Rdiv_lt_0_compat; lra).
    set (q := sqrt (2 / INR (crowd [1%nat] h 1))) in *. unfold at_time, Rsum. simpl. lra.
Qed.

Print Assumptions C93_times.
Print Assumptions C94_sequence.
