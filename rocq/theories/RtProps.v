(** C92, C95: interpolation of the histogram, and the impulse response built from ray tracing. *)
From Coq Require Import List ZArith Lia Reals Lra Bool Psatz.
From Verif Require Import Base Vec RirModel RirProofs SimulateModel SimulateSpec SimulateProofs BandsModel RtModel BaseProofs RtSeqProps.
Import ListNotations.
Local Open Scope R_scope.

(** ** C92 *)

(** The point [(x, y)] is on the broken line through the points [(t k, v k)], [k < n]. *)
Definition on_polyline (n : nat) (t v : nat -> R) (x y : R) : Prop :=
  exists k lam, (S k < n)%nat /\ 0 <= lam <= 1 /\ x = (1 - lam) * t k + lam * t (S k) /\ y = (1 - lam) * v k + lam * v (S k).

Lemma interp_polyline : forall (t v : nat -> R) n a x, (0 < n)%nat -> (forall k, t k < t (S k)) ->
  t a <= x <= t (a + n)%nat ->
  exists k lam, (a <= k < a + n)%nat /\ 0 <= lam <= 1 /\ x = (1 - lam) * t k + lam * t (S k) /\
    interp (map (fun k => (t k, v k)) (seq a (S n))) x = (1 - lam) * v k + lam * v (S k).
Proof.
  intros t v n. induction n as [|n IH]; intros a x Hn Ht Hx; [lia|].
  set (pts := map (fun k => (t k, v k)) (seq (S a) (S n))).
  change (map (fun k => (t k, v k)) (seq a (S (S n)))) with ((t a, v a) :: pts).
  assert (E : interp ((t a, v a) :: pts) x =
    if Rlt_dec x (t (S a)) then (v (S a) - v a) / (t (S a) - t a) * (x - t a) + v a else interp pts x) by reflexivity.
  rewrite E. pose proof (Ht a) as Ta. destruct (Rlt_dec x (t (S a))) as [L|L].
  - exists a, ((x - t a) / (t (S a) - t a)). split; [lia|]. split; [|split; field; lra]. split.
    + apply Rmult_le_pos; [lra|]. left. apply Rinv_0_lt_compat. lra.
    + apply Rmult_le_reg_r with (t (S a) - t a); [lra|]. unfold Rdiv. rewrite Rmult_assoc, Rinv_l by lra. lra.
  - destruct n as [|n].
    + replace (a + 1)%nat with (S a) in Hx by lia. assert (x = t (S a)) by lra.
      exists a, 1. split; [lia|]. split; [lra|]. split; [lra|]. unfold pts. cbn. lra.
    + destruct (IH (S a) x ltac:(lia) Ht) as (k & lam & K1 & K2 & K3 & K4).
      { replace (S a + S n)%nat with (a + S (S n))%nat by lia. lra. }
      exists k, lam. split; [lia|]. repeat split; try lra. exact K4.
Qed.

Lemma pad_facts : forall n h, (0 < n)%nat -> ((n * h) / n / 2 = h / 2)%nat.
Proof. intros n h Hn. f_equal. rewrite Nat.mul_comm. apply Nat.div_mul. lia. Qed.

Lemma anchor_step : forall n h k, (2 <= n)%nat -> (2 <= h)%nat -> anchor (n * h) n k < anchor (n * h) n (S k).
Proof.
  intros n h k Hn Hh. unfold anchor. destruct (Nat.eqb_spec n 1); [lia|]. rewrite pad_facts by lia.
  set (p := (h / 2)%nat). rewrite S_INR.
  assert (P : (p + p <= h)%nat). { unfold p. pose proof (Nat.mul_div_le h 2 ltac:(lia)). lia. }
  assert (Q : INR p + INR p <= INR h) by (rewrite <- plus_INR; apply le_INR; exact P).
  assert (Nr : 2 <= INR n) by (apply le_INR in Hn; cbn [INR] in Hn; lra).
  assert (Hr : 2 <= INR h) by (apply le_INR in Hh; cbn [INR] in Hh; lra).
  rewrite mult_INR.
  assert (G : 0 < (INR n * INR h - 1 - INR p - INR p) / (INR n - 1)). { apply Rdiv_lt_0_compat; [nra|lra]. }
  lra.
Qed.

Lemma anchor_ends : forall n h, (2 <= n)%nat -> (2 <= h)%nat ->
  anchor (n * h) n 0 = INR (h / 2) /\ anchor (n * h) n (n - 1) = INR (n * h) - 1 - INR (h / 2).
Proof.
  intros n h Hn Hh. unfold anchor. destruct (Nat.eqb_spec n 1); [lia|]. rewrite pad_facts by lia.
  assert (Nr : 2 <= INR n) by (apply le_INR in Hn; cbn [INR] in Hn; lra).
  cbn [INR]. rewrite minus_INR by lia. cbn [INR]. split; [field; lra|field; lra].
Qed.

(** The anchors of the interpolation are the centres of the bins, to within half a sample. *)
Theorem C92_anchors : forall n h k, (2 <= n)%nat -> (2 <= h)%nat -> (k < n)%nat ->
  Rabs (anchor (n * h) n k - (INR k * INR h + (INR h - 1) / 2)) <= / 2.
Proof.
  intros n h k Hn Hh Hk. unfold anchor. destruct (Nat.eqb_spec n 1); [lia|]. rewrite pad_facts by lia.
  assert (Nr : 2 <= INR n) by (apply le_INR in Hn; cbn [INR] in Hn; lra).
  assert (Kr : INR k <= INR n - 1) by (replace (INR n - 1) with (INR (n - 1)) by (rewrite minus_INR by lia; cbn; lra); apply le_INR; lia).
  pose proof (pos_INR k) as K0.
  destruct (Nat.Even_or_Odd h) as [[q E]|[q E]].
  - assert (P : (h / 2 = q)%nat) by (rewrite E, Nat.mul_comm; apply Nat.div_mul; lia). rewrite P, mult_INR, E, mult_INR. cbn [INR].
    replace (_ - _) with (/ 2 - INR k / (INR n - 1)) by (field; lra).
    assert (F : 0 <= INR k / (INR n - 1) <= 1).
    { split; [apply Rmult_le_pos; [lra|left; apply Rinv_0_lt_compat; lra]|].
      apply Rmult_le_reg_r with (INR n - 1); [lra|]. unfold Rdiv. rewrite Rmult_assoc, Rinv_l by lra. lra. }
    apply Rabs_le. lra.
  - assert (P : (h / 2 = q)%nat) by (symmetry; apply (Nat.div_unique _ _ _ 1); lia). rewrite P, mult_INR, E, plus_INR, mult_INR. cbn [INR].
    replace (_ - _) with 0 by (field; lra). rewrite Rabs_R0. lra.
Qed.

Lemma nth_app_l : forall (a b : vec) i, (i < length a)%nat -> nth i (a ++ b) 0 = nth i a 0.
Proof. intros. now apply app_nth1. Qed.

Lemma interp_hist_shape : forall hist h n, length hist = n -> (0 < n)%nat -> (2 <= h)%nat ->
  let p := (h / 2)%nat in
  let N := (n * h)%nat in
  let f i := interp (map (fun k => (anchor N n k, nth k hist 0)) (seq 0 n)) (INR i) in
  let first := if Nat.eqb (p + p) N then 0 else f p in
  exists out, interp_hist hist N = Some out /\ length out = N /\
    (forall i, (i < p)%nat -> nth i out 0 = first) /\
    (forall i, (p <= i < N - p)%nat -> nth i out 0 = f i) /\
    (forall i, (N - p <= i < N)%nat -> nth i out 0 = 0).
Proof.
  intros hist h n Hl Hn Hh p N f first.
  assert (P1 : (1 <= p)%nat) by (unfold p; apply Nat.div_le_lower_bound; lia).
  assert (P2 : (p + p <= h)%nat) by (unfold p; pose proof (Nat.mul_div_le h 2 ltac:(lia)); lia).
  assert (P3 : (h <= N)%nat) by (unfold N; nia).
  unfold interp_hist. rewrite Hl. destruct (Nat.eqb_spec n 0); [lia|]. fold N.
  assert (Ep : (N / n / 2)%nat = p) by (unfold N, p; now apply pad_facts). rewrite Ep.
  destruct (Nat.eqb_spec p 0); [lia|].
  set (m := (N - p - p)%nat).
  set (F := map (fun i => interp (map (fun k => (anchor N n k, nth k hist 0)) (seq 0 n)) (INR i)) (seq p m)).
  assert (LF : length F = m) by (unfold F; rewrite map_length; apply seq_length).
  assert (NF : forall i, (i < m)%nat -> nth i F 0 = f (p + i)%nat).
  { intros i Hi. unfold F. rewrite (nth_indep _ 0 (interp (map (fun k => (anchor N n k, nth k hist 0)) (seq 0 n)) (INR 0))) by (rewrite map_length, seq_length; exact Hi).
    rewrite (map_nth (fun i => interp _ (INR i))). rewrite seq_nth by exact Hi. reflexivity. }
  set (out1 := repeat 0 p ++ F ++ repeat 0 p).
  assert (L1 : length out1 = N) by (unfold out1; rewrite !app_length, !repeat_length, LF; unfold m; lia).
  assert (N1 : forall i, nth i out1 0 = if (p <=? i)%nat && (i <? N - p)%nat then f i else 0).
  { intros i. unfold out1. destruct (Nat.leb_spec p i); cbn [andb].
    - rewrite app_nth2; rewrite repeat_length; [|lia]. destruct (Nat.ltb_spec i (N - p)).
      + rewrite app_nth1 by (rewrite LF; unfold m; lia). rewrite NF by (unfold m; lia). f_equal. lia.
      + rewrite app_nth2; rewrite LF; [|unfold m; lia]. apply nth_repeat.
    - rewrite app_nth1 by (rewrite repeat_length; lia). apply nth_repeat. }
  set (out2 := repeat (nth p out1 0) p ++ skipn p out1).
  assert (L2 : length out2 = N) by (unfold out2; rewrite app_length, repeat_length, skipn_length, L1; lia).
  assert (SK : forall (l : vec) k a, nth k (skipn a l) 0 = nth (a + k) l 0).
  { induction l as [|u l IHl]; intros k [|a]; cbn; auto. destruct k; reflexivity. }
  assert (FK : forall (l : vec) k a, (k < a)%nat -> nth k (firstn a l) 0 = nth k l 0).
  { induction l as [|u l IHl]; intros [|k] [|a] H; cbn; try lia; auto. apply IHl. lia. }
  assert (N2 : forall i, nth i out2 0 = if (i <? p)%nat then first else if (i <? N - p)%nat then f i else 0).
  { intros i. unfold out2. destruct (Nat.ltb_spec i p).
    - rewrite app_nth1 by (rewrite repeat_length; lia). rewrite nth_repeat_in by lia. rewrite N1.
      unfold first. destruct (Nat.leb_spec p p); [|lia]. cbn [andb].
      destruct (Nat.ltb_spec p (N - p)); destruct (Nat.eqb_spec (p + p) N); try reflexivity; lia.
    - rewrite app_nth2; rewrite repeat_length; [|lia]. rewrite SK. replace (p + (i - p))%nat with i by lia. rewrite N1.
      destruct (Nat.leb_spec p i); [|lia]. reflexivity. }
  eexists. split; [reflexivity|]. split.
  { rewrite app_length, firstn_length, repeat_length, L2. lia. }
  assert (Q : nth (N - p) out2 0 = 0).
  { rewrite N2. destruct (Nat.ltb_spec (N - p) p); [lia|]. destruct (Nat.ltb_spec (N - p) (N - p)); [lia|reflexivity]. }
  rewrite Q.
  assert (LL : length (firstn (N - p) out2) = (N - p)%nat) by (rewrite firstn_length, L2; lia).
  split; [|split].
  - intros i Hi. rewrite nth_app_l by lia. rewrite FK by lia. rewrite N2. destruct (Nat.ltb_spec i p); [reflexivity|lia].
  - intros i Hi. rewrite nth_app_l by lia. rewrite FK by lia. rewrite N2.
    destruct (Nat.ltb_spec i p); [lia|]. destruct (Nat.ltb_spec i (N - p)); [reflexivity|lia].
  - intros i Hi. rewrite app_nth2; rewrite LL; [|lia]. apply nth_repeat.
Qed.

(** With at least two bins of at least two samples, the histogram is drawn as a broken line through
    the anchors; the first value is repeated before it. *)
Theorem C92_interp : forall hist n h, length hist = n -> (2 <= n)%nat -> (2 <= h)%nat ->
  exists out, interp_hist hist (n * h) = Some out /\ length out = (n * h)%nat /\
    (forall i, (i < h / 2)%nat -> nth i out 0 = nth 0 hist 0) /\
    (forall i, (h / 2 <= i < n * h - h / 2)%nat ->
       on_polyline n (anchor (n * h) n) (fun k => nth k hist 0) (INR i) (nth i out 0)) /\
    nth (h / 2) out 0 = nth 0 hist 0 /\ nth (n * h - 1 - h / 2) out 0 = nth (n - 1) hist 0.
Proof.
  intros hist n h Hl Hn Hh.
  destruct (interp_hist_shape hist h n Hl ltac:(lia) Hh) as (out & E & L & O1 & O2 & O3).
  set (p := (h / 2)%nat) in *. set (N := (n * h)%nat) in *.
  assert (P1 : (1 <= p)%nat) by (unfold p; apply Nat.div_le_lower_bound; lia).
  assert (P2 : (p + p <= h)%nat) by (unfold p; pose proof (Nat.mul_div_le h 2 ltac:(lia)); lia).
  assert (P3 : (h + h <= N)%nat) by (unfold N; nia).
  destruct (anchor_ends n h Hn Hh) as [A0 A1]. fold p N in A0, A1.
  assert (St : forall k, anchor N n k < anchor N n (S k)) by (intro; apply anchor_step; assumption).
  assert (Inc : forall j k, (j < k)%nat -> anchor N n j < anchor N n k).
  { intros j k H. induction H as [|k H IH]; [apply St|]. pose proof (St k). lra. }
  assert (PL : forall i, (p <= i < N - p)%nat -> on_polyline n (anchor N n) (fun k => nth k hist 0) (INR i) (nth i out 0)).
  { intros i Hi. rewrite O2 by exact Hi.
    destruct (interp_polyline (anchor N n) (fun k => nth k hist 0) (n - 1) 0 (INR i)) as (k & lam & K1 & K2 & K3 & K4); [lia|exact St| |].
    { cbn [Nat.add]. rewrite A0, A1. split; [apply le_INR; lia|].
      replace (INR N - 1 - INR p) with (INR (N - 1 - p)) by (rewrite !minus_INR by lia; cbn [INR]; lra). apply le_INR. lia. }
    exists k, lam. split; [lia|]. split; [exact K2|]. split; [exact K3|].
    rewrite <- K4. replace (S (n - 1)) with n by lia. reflexivity. }
  assert (F0 : nth p out 0 = nth 0 hist 0).
  { destruct (PL p ltac:(lia)) as (k & lam & K1 & K2 & K3 & K4). rewrite K4. rewrite <- A0 in K3.
    destruct k as [|k].
    - pose proof (St 0%nat). assert (lam = 0) by nra. subst lam. cbv beta. lra.
    - exfalso. pose proof (Inc 0%nat (S k) ltac:(lia)). pose proof (St (S k)).
      pose proof (Rmult_le_pos lam (anchor N n (S (S k)) - anchor N n (S k)) ltac:(lra) ltac:(lra)). lra. }
  exists out. split; [exact E|]. split; [exact L|]. split; [|split; [exact PL|split; [exact F0|]]].
  - intros i Hi. rewrite O1 by exact Hi. rewrite <- F0, O2 by lia. destruct (Nat.eqb_spec (p + p) N); [lia|reflexivity].
  - destruct (PL (N - 1 - p)%nat ltac:(lia)) as (k & lam & K1 & K2 & K3 & K4). rewrite K4.
    assert (X : INR (N - 1 - p) = anchor N n (n - 1)) by (rewrite A1; rewrite !minus_INR by lia; cbn [INR]; lra).
    rewrite X in K3. destruct (Nat.eq_dec (S k) (n - 1)) as [D|D].
    + rewrite <- D in *. pose proof (St k). assert (lam = 1) by nra. subst lam. cbv beta. lra.
    + exfalso. pose proof (Inc (S k) (n - 1)%nat ltac:(lia)). pose proof (St k).
      pose proof (Rmult_le_pos (1 - lam) (anchor N n (S k) - anchor N n k) ltac:(lra) ltac:(lra)). lra.
Qed.

(** Hence it stays between bounds of the histogram (in particular not negative) until the last half bin. *)
Theorem C92_bounds : forall hist n h lo hi out, length hist = n -> (2 <= n)%nat -> (2 <= h)%nat ->
  Forall (fun v => lo <= v <= hi) hist -> interp_hist hist (n * h) = Some out ->
  forall i, (i < n * h - h / 2)%nat -> lo <= nth i out 0 <= hi.
Proof.
  intros hist n h lo hi out Hl Hn Hh Hb E i Hi.
  destruct (C92_interp hist n h Hl Hn Hh) as (o & E' & L & O1 & O2 & _). assert (o = out) by congruence. subst o.
  assert (B : forall k, (k < n)%nat -> lo <= nth k hist 0 <= hi).
  { intros k Hk. apply (nth_forall (fun v => lo <= v <= hi)); [exact Hb|lia]. }
  destruct (Nat.lt_ge_cases i (h / 2)) as [J|J].
  - rewrite O1 by exact J. apply B. lia.
  - destruct (O2 i ltac:(lia)) as (k & lam & K1 & K2 & K3 & ->).
    pose proof (B k ltac:(lia)). pose proof (B (S k) K1). nra.
Qed.

(** The last half bin is silent, whatever the histogram. *)
Theorem C92_tail : forall hist n h, length hist = n -> (0 < n)%nat -> (2 <= h)%nat ->
  exists out, interp_hist hist (n * h) = Some out /\ forall i, (n * h - h / 2 <= i < n * h)%nat -> nth i out 0 = 0.
Proof.
  intros hist n h Hl Hn Hh. destruct (interp_hist_shape hist h n Hl Hn Hh) as (out & E & L & O1 & O2 & O3).
  exists out. split; [exact E|exact O3].
Qed.

(** So the last value is not repeated after the broken line, as the description says. *)
Theorem C92_tail_refuted : exists hist N out i, interp_hist hist N = Some out /\ (i < N)%nat /\
  anchor N (length hist) (length hist - 1) < INR i /\ nth i out 0 <> last hist 0.
Proof.
  destruct (C92_tail [1; 5] 2 3 eq_refl ltac:(lia) ltac:(lia)) as (out & E & Z).
  destruct (anchor_ends 2 3 ltac:(lia) ltac:(lia)) as [_ A].
  exists [1; 5], 6%nat, out, 5%nat. split; [exact E|]. split; [lia|]. split.
  - cbn [length]. change (2 * 3)%nat with 6%nat in A. rewrite A. change (3 / 2)%nat with 1%nat. cbn [INR]. lra.
  - rewrite Z by (change (3 / 2)%nat with 1%nat; lia). cbn. lra.
Qed.

(** With a single bin of an even number of samples everything is lost. *)
Theorem C92_single_refuted : exists v N out, 0 < v /\ (0 < N)%nat /\ interp_hist [v] N = Some out /\ forall i, nth i out 0 = 0.
Proof.
  exists 1, 4%nat. destruct (interp_hist_shape [1] 4 1 eq_refl ltac:(lia) ltac:(lia)) as (out & E & L & O1 & O2 & O3).
  exists out. split; [lra|]. split; [lia|]. split; [exact E|]. intro i.
  change (4 / 2)%nat with 2%nat in *. change (1 * 4)%nat with 4%nat in *.
  destruct (Nat.lt_ge_cases i 2) as [J|J]; [rewrite O1 by exact J; reflexivity|].
  destruct (Nat.lt_ge_cases i 4) as [K|K]; [apply O3; lia|]. apply nth_overflow. lia.
Qed.

(** With bins of one sample it fails. *)
Theorem C92_small_bins_refuted : exists hist, (2 <= length hist)%nat /\ interp_hist hist (length hist * 1) = None.
Proof. exists [1; 2; 3]. split; [cbn; lia|]. reflexivity. Qed.

(** Two bins of three samples. *)
Example C92_ex : exists out, interp_hist [1; 5] 6 = Some out /\ nth 0 out 0 = 1 /\ nth 1 out 0 = 1 /\ nth 4 out 0 = 5 /\ nth 5 out 0 = 0.
Proof.
  destruct (C92_interp [1; 5] 2 3 eq_refl ltac:(lia) ltac:(lia)) as (out & E & L & O1 & O2 & O3 & O4).
  destruct (interp_hist_shape [1; 5] 3 2 eq_refl ltac:(lia) ltac:(lia)) as (out' & E' & L' & _ & _ & O5).
  assert (out' = out) by congruence. subst out'. change (2 * 3)%nat with 6%nat in *. change (3 / 2)%nat with 1%nat in *.
  exists out. split; [exact E|]. split; [apply O1; lia|]. split; [exact O3|]. split; [exact O4|apply O5; lia].
Qed.

(** ** C95 *)

(** One table of energies (bands by bins) for each direction; the tables may have different lengths. *)
Definition histograms_ok (n_bands : nat) (hs : list (list vec)) : Prop :=
  hs <> [] /\ (0 < n_bands)%nat /\ Forall (fun h => exists len, energies n_bands len h) hs.
(** The energy in bin [j], of band [b], and of all bands. *)
Definition band_energy (hs : list (list vec)) (b j : nat) : R := Rsum (map (fun h => nth j (nth b h []) 0) hs).
Definition bin_energy (hs : list (list vec)) (j : nat) : R := Rsum (map (fun h => Rsum (map (fun row => nth j row 0) h)) hs).
(** All energy is in the first [n] bins, and there is some in the last of them. *)
Definition n_bins_is (hs : list (list vec)) (n : nat) : Prop :=
  (forall j, (n <= j)%nat -> bin_energy hs j = 0) /\ ((0 < n)%nat -> 0 < bin_energy hs (n - 1)).

Lemma last_nonzero : forall (x : nat -> R) L,
  let r := fold_left (fun n j => if Req_EM_T (x j) 0 then n else S j) (seq 0 L) 0%nat in
  (r <= L)%nat /\ (forall j, (r <= j < L)%nat -> x j = 0) /\ ((0 < r)%nat -> x (r - 1)%nat <> 0).
Proof.
  intros x L. induction L as [|L IH]; [cbn; repeat split; intros; lia|].
  rewrite seq_S, fold_left_app. cbn [fold_left Nat.add]. destruct IH as (I1 & I2 & I3).
  set (r := fold_left _ (seq 0 L) 0%nat) in *. destruct (Req_EM_T (x L) 0) as [Z|Z].
  - split; [lia|]. split; [|exact I3]. intros j Hj. destruct (Nat.eq_dec j L) as [->|]; [exact Z|]. apply I2. lia.
  - split; [lia|]. split; [intros; lia|]. intros _. replace (S L - 1)%nat with L by lia. exact Z.
Qed.

Lemma Rsum_nonneg : forall l, Forall (fun x => 0 <= x) l -> 0 <= Rsum l.
Proof. intros l H. induction H; unfold Rsum in *; cbn; lra. Qed.
Lemma Rsum_zero_all : forall l, Forall (fun x => 0 <= x) l -> Rsum l = 0 -> forall x, In x l -> x = 0.
Proof.
  intros l H. induction H as [|a l Ha Hl IH]; intros E x Hx; [destruct Hx|].
  change (Rsum (a :: l)) with (a + Rsum l) in E. pose proof (Rsum_nonneg l Hl).
  destruct Hx as [<-|Hx]; [lra|]. apply IH; [lra|exact Hx].
Qed.

Lemma energies_nth : forall rows n h b j, energies rows n h -> 0 <= nth j (nth b h []) 0.
Proof.
  intros rows n h b j [_ H]. destruct (Nat.lt_ge_cases b (length h)) as [L|L].
  - rewrite Forall_forall in H. destruct (H (nth b h []) (nth_In _ _ L)) as [_ P].
    destruct (Nat.lt_ge_cases j (length (nth b h []))) as [K|K].
    + apply (nth_forall (fun x => 0 <= x)); assumption.
    + rewrite nth_overflow by lia. lra.
  - rewrite (nth_overflow h) by lia. destruct j; cbn; lra.
Qed.

Lemma column_nonneg : forall rows n h j, energies rows n h -> Forall (fun x => 0 <= x) (column h j).
Proof.
  intros rows n h j H. unfold column. apply Forall_map. apply Forall_forall. intros row Hr.
  destruct (In_nth _ _ [] Hr) as (b & Hb & <-). eapply energies_nth. exact H.
Qed.

Lemma last_el_spec : forall nb n h, energies nb n h -> (0 < nb)%nat ->
  (forall j, (last_el h <= j)%nat -> Rsum (column h j) = 0) /\ ((0 < last_el h)%nat -> 0 < Rsum (column h (last_el h - 1))).
Proof.
  intros nb n h H Hb. unfold last_el. set (x := over_bands h).
  assert (L0 : length (nth 0 h []) = n).
  { destruct H as [H1 H2]. destruct h as [|r h]; [cbn in H1; lia|]. cbn. inversion H2; subst. tauto. }
  assert (Lx : length x = n) by (unfold x, over_bands; rewrite map_length, seq_length; exact L0).
  assert (Nx : forall j, (j < n)%nat -> nth j x 0 = Rsum (column h j)).
  { intros j Hj. unfold x, over_bands. rewrite nth_map_seq by lia. reflexivity. }
  rewrite Lx. destruct (last_nonzero (fun j => nth j x 0) n) as (R1 & R2 & R3). set (r := fold_left _ _ _) in *. split.
  - intros j Hj. destruct (Nat.lt_ge_cases j n) as [K|K]; [rewrite <- Nx by exact K; apply R2; lia|].
    unfold column. apply Rsum_map_zero. intros row Hr. destruct H as [_ H]. rewrite Forall_forall in H. destruct (H row Hr). apply nth_overflow. lia.
  - intros Hr. specialize (R3 Hr). rewrite Nx in R3 by lia. pose proof (Rsum_nonneg _ (column_nonneg _ _ _ (r - 1)%nat H)). lra.
Qed.

Lemma list_max_nat_spec : forall l, (forall x, In x l -> (x <= list_max_nat l)%nat) /\ ((0 < list_max_nat l)%nat -> In (list_max_nat l) l).
Proof.
  induction l as [|a l [I1 I2]]; [split; [intros x []|cbn; lia]|]. cbn [list_max_nat fold_right]. fold (list_max_nat l). split.
  - intros x [->|Hx]; [lia|]. specialize (I1 x Hx). lia.
  - intros H. destruct (Nat.max_spec a (list_max_nat l)) as [[Q ->]|[Q ->]]; [right; apply I2; lia|now left].
Qed.

Lemma bins_count : forall nb hs, histograms_ok nb hs -> n_bins_is hs (list_max_nat (map last_el hs)).
Proof.
  intros nb hs (Hne & Hb & H). set (m := list_max_nat (map last_el hs)).
  destruct (list_max_nat_spec (map last_el hs)) as [M1 M2]. fold m in M1, M2. rewrite Forall_forall in H. split.
  - intros j Hj. unfold bin_energy. apply Rsum_map_zero. intros h Hh. destruct (H h Hh) as [len E].
    apply (proj1 (last_el_spec nb len h E Hb)). pose proof (M1 (last_el h) (in_map _ _ _ Hh)). lia.
  - intros Hm. specialize (M2 Hm). apply in_map_iff in M2. destruct M2 as (h & Eh & Hh). destruct (H h Hh) as [len E].
    pose proof (proj2 (last_el_spec nb len h E Hb) ltac:(lia)) as P. rewrite Eh in P.
    assert (Q : forall l, incl l hs -> In h l -> Rsum (column h (m - 1)) <= Rsum (map (fun h => Rsum (map (fun row => nth (m - 1) row 0) h)) l)).
    { induction l as [|g l IHl]; intros Hi Hin; [destruct Hin|]. cbn [map].
      match goal with |- _ <= Rsum (?a :: ?l) => change (Rsum (a :: l)) with (a + Rsum l) end.
      assert (N0 : 0 <= Rsum (map (fun h => Rsum (map (fun row => nth (m - 1) row 0) h)) l)).
      { apply Rsum_nonneg. apply Forall_map. apply Forall_forall. intros g' Hg'. destruct (H g' (Hi g' (or_intror Hg'))) as [len' E'].
        apply Rsum_nonneg. apply (column_nonneg _ _ _ _ E'). }
      destruct Hin as [->|Hin]; [unfold column; lra|].
      destruct (H g (Hi g (or_introl eq_refl))) as [len' E']. pose proof (Rsum_nonneg _ (column_nonneg _ _ _ (m - 1)%nat E')) as G0.
      unfold column in G0. assert (incl l hs) by (intros y Hy; apply Hi; now right). specialize (IHl H0 Hin). lra. }
    apply (Rlt_le_trans _ _ _ P). apply Q; [apply incl_refl|exact Hh].
Qed.

Lemma bins_unique : forall hs a b, n_bins_is hs a -> n_bins_is hs b -> a = b.
Proof.
  intros hs a b [A1 A2] [B1 B2]. destruct (Nat.lt_trichotomy a b) as [L|[L|L]]; [|exact L|].
  - specialize (B2 ltac:(lia)). rewrite A1 in B2 by lia. lra.
  - specialize (A2 ltac:(lia)). rewrite B1 in A2 by lia. lra.
Qed.

Lemma nth_adjust : forall n h j, nth j (adjust_length n h) 0 = if (j <? n)%nat then nth j h 0 else 0.
Proof.
  intros n h j. unfold adjust_length.
  assert (L : length (firstn n (h ++ repeat 0 (n - length h))) = n) by (rewrite firstn_length, app_length, repeat_length; lia).
  destruct (Nat.ltb_spec j n) as [K|K]; [|apply nth_overflow; lia].
  assert (FK : forall (l : vec) k a, (k < a)%nat -> nth k (firstn a l) 0 = nth k l 0).
  { induction l as [|u l IHl]; intros [|k] [|a] H; cbn; try lia; auto. apply IHl. lia. }
  rewrite FK by exact K. destruct (Nat.lt_ge_cases j (length h)); [apply app_nth1; lia|].
  rewrite app_nth2 by lia. rewrite nth_repeat. symmetry. apply nth_overflow. lia.
Qed.
Lemma adjust_len : forall n h, length (adjust_length n h) = n.
Proof. intros. unfold adjust_length. rewrite firstn_length, app_length, repeat_length. lia. Qed.

(** A simulation that can be run: as set up by the room, bins of a whole number of samples, at least
    two; an all-band filter that keeps the number of samples; draws for the deltas. *)
Definition setup_ok (s : setup) : Prop :=
  0 < s_fs s /\ 0 < s_c s /\ 0 < s_volume s /\ (2 <= s_hbss s)%nat /\ s_bin_size s = INR (s_hbss s) / s_fs s /\
  forall b x, length (s_analysis s b x) = length x.

(** The taps for each of the directions: as given, or the gain of the direction (one gain is for all), or
    the filters with the gains of the bands. *)
Definition responses_are (s : setup) (n_dirs n_bands : nat) (r : responses) (taps : list vec) : Prop :=
  length taps = n_dirs /\ (exists n_taps, Forall (fun t => length t = n_taps) taps) /\
  match r with
  | Fir t => taps = t
  | Gains g => exists gain, (length g = n_dirs /\ (forall k, gain k = nth k g 0) \/ (exists v, g = [v] /\ forall k, gain k = v)) /\
                 forall k, (k < n_dirs)%nat -> nth k taps [] = [gain k]
  | Bands g => Forall (fun row => length row = n_bands) g /\ taps = s_synthesis s g
  end.

Lemma responses_found : forall s n_dirs n_bands r taps, responses_are s n_dirs n_bands r taps ->
  responses_of s n_dirs n_bands r = Some taps /\ length taps = n_dirs /\ exists n_taps, Forall (fun t => length t = n_taps) taps.
Proof.
  intros s nd nb r taps (HL & HT & HR). split; [|split; assumption]. destruct r as [t|g|g]; cbn [responses_of].
  - now rewrite HR.
  - destruct HR as (gain & HG & Hk).
    assert (C : (Nat.eqb (length g) nd || Nat.eqb (length g) 1)%bool = true).
    { destruct HG as [[Q _]|(v & -> & _)]; [rewrite Q, Nat.eqb_refl; reflexivity|]. cbn [length]. rewrite Nat.eqb_refl. apply orb_true_r. }
    rewrite C. f_equal. apply (nth_ext _ _ [] []); [now rewrite map_length, seq_length|].
    intros k Hk'. rewrite map_length, seq_length in Hk'. rewrite nth_map_seq by exact Hk'. rewrite Hk by exact Hk'. f_equal.
    destruct HG as [[Q G]|(v & -> & G)]; rewrite G; [|reflexivity].
    destruct (Nat.eqb_spec (length g) 1); [|reflexivity]. now replace k with 0%nat by lia.
  - destruct HR as [HF ->]. replace (forallb _ g) with true; [reflexivity|]. symmetry. apply forallb_forall. intros row Hrow.
    rewrite Forall_forall in HF. apply Nat.eqb_eq. now apply HF.
Qed.

Lemma Zfloor_nonneg : forall x, 0 <= x -> (0 <= Zfloor x)%Z.
Proof. intros x H. apply Zfloor_le in H. rewrite (Zfloor_unique 0 0) in H by (cbn; lra). exact H. Qed.

Lemma in_order_loop : forall fuel V D c mx t0 z t l, 0 < V -> 0 < c -> 0 < mx -> 0 < t0 -> 0 <= D ->
  (forall i, 0 < z i < 1) -> poisson_sequence fuel V D c mx (Some t0) z = Some (t, l) -> in_order t0 l.
Proof.
  intros fuel V D c mx t0 z t l HV Hc Hm H0 HD Hz E.
  destruct (C93_times fuel V D c mx t0 z t l HV Hc Hm H0 HD Hz E) as (_ & F & _ & Sx).
  assert (St : forall j, (S j < length l)%nat -> nth j l 0 < nth (S j) l 0).
  { intros j Hj. destruct (Sx j (nth j l 0) (nth (S j) l 0)) as (_ & G & _); [|exact G].
    split; apply nth_error_nth'; lia. }
  assert (Inc : forall j k, (j <= k < length l)%nat -> nth j l 0 <= nth k l 0).
  { intros j k [Hjk Hk]. induction Hjk as [|k Hjk IH]; [lra|]. specialize (IH ltac:(lia)). pose proof (St k Hk). lra. }
  assert (N0 : nth 0 l 0 = t0) by (now apply nth_error_nth).
  split; [intro Q; rewrite Q in F; discriminate|]. split; [|exact Inc].
  apply Forall_forall. intros x Hx. destruct (In_nth _ _ 0 Hx) as (k & Hk & <-). rewrite <- N0. apply Inc. lia.
Qed.

Lemma map2_nth : forall (a b : vec) i, length a = length b -> nth i (map2 Rmult a b) 0 = nth i a 0 * nth i b 0.
Proof. intros. apply nth_map2; [lra|assumption]. Qed.

Lemma mapM_nth : forall (f : nat -> option vec) n l, mapM f (seq 0 n) = Some l -> forall b, (b < n)%nat -> f b = Some (nth b l []).
Proof.
  intros f n l H b Hb. apply mapM_inv in H.
  assert (G : forall a m (l : list vec), Forall2 (fun x y => f x = Some y) (seq a m) l -> forall b, (b < m)%nat -> f (a + b)%nat = Some (nth b l [])).
  { intros a m. revert a. induction m as [|m IH]; intros a l0 H0 c Hc; [lia|]. inversion H0; subst.
    destruct c as [|c]; [rewrite Nat.add_0_r; assumption|]. replace (a + S c)%nat with (S a + c)%nat by lia. cbn [nth]. apply IH; [assumption|lia]. }
  apply (G 0%nat n l H b Hb).
Qed.

Lemma column_at : forall rb i, Rsum (column rb i) = Rsum (map (fun b => nth i (nth b rb []) 0) (seq 0 (length rb))).
Proof.
  intros rb i. unfold column. f_equal. induction rb as [|r rb IH]; [reflexivity|].
  cbn [map length seq]. f_equal. rewrite <- seq_shift, map_map. exact IH.
Qed.

(** What is computed, with the intermediate results named. *)
Definition rir_of (s : setup) (n_bins n_bands : nat) (hs : list (list vec)) (air : option vec) (x : vec) (i : nat) : R :=
  let N := (n_bins * s_hbss s)%nat in
  let env b := match interp_hist (hist_band (map (map (adjust_length n_bins)) hs) n_bins b) N with Some o => o | None => [] end in
  let shaped b := map2 Rmult (if (1 <? n_bands)%nat then s_analysis s b x else x) (map (fun v => sqrt (Rmax v 0)) (env b)) in
  match air with
  | None => Rsum (map (fun b => nth i (shaped b) 0) (seq 0 n_bands))
  | Some co =>
      if Nat.eqb n_bands 1
      then Rsum (map (fun b => nth i (s_analysis s b (shaped 0%nat)) 0 * air_gain s (nth b co 0) i) (seq 0 (s_bank s)))
      else Rsum (map (fun b => nth i (shaped b) 0 * air_gain s (nth b co 0) i) (seq 0 n_bands))
  end.

Lemma compute_master : forall s fuel t0 hs resp taps air z d n n_bands times,
  setup_ok s -> 0 < t0 -> (forall i, 0 < z i < 1) -> histograms_ok n_bands hs ->
  n_bins_is hs n -> (0 < n)%nat -> responses_are s (length hs) n_bands resp taps ->
  poisson_sequence fuel (s_volume s) (INR (n * s_hbss s) / s_fs s) (s_c s) 10000 (Some t0) z = Some (t0, times) ->
  well_drawn (length times) d ->
  (forall co, air = Some co -> length co = if Nat.eqb n_bands 1 then s_bank s else n_bands) ->
  exists y, directional_sequence (s_fs s) t0 (s_bin_size s) times taps (hist_direction (map (map (adjust_length n)) hs) n) d = Some y /\
    (n * s_hbss s <= length y)%nat /\
    compute_rt_rir s fuel t0 hs resp air z d =
      Some (repeat 0 (s_fdl s / 2) ++ map (rir_of s n n_bands hs air (firstn (n * s_hbss s) y)) (seq 0 (n * s_hbss s))).
Proof.
  intros s fuel t0 hs resp taps air z d n nb times (Hf & Hc & HV & Hh & Hb & Han) H0 Hz Hhs Hn Hn0 Hr0 Hp Hd Hair. destruct (responses_found _ _ _ _ _ Hr0) as (Hr1 & Hr2 & n_taps & Hr3).
  set (N := (n * s_hbss s)%nat) in *.
  assert (Hh2 : 2 <= INR (s_hbss s)) by (apply le_INR in Hh; cbn [INR] in Hh; lra).
  assert (HN : 0 <= INR N / s_fs s) by (apply Rmult_le_pos; [apply pos_INR|left; now apply Rinv_0_lt_compat]).
  assert (Hm : 0 < 10000) by lra.
  pose proof (in_order_loop _ _ _ _ _ _ _ _ _ HV Hc Hm H0 HN Hz Hp) as Ho.
  destruct Hhs as (Hne & Hnb & Hall). pose proof Hall as Hall'. rewrite Forall_forall in Hall'.
  assert (Hcount : list_max_nat (map last_el hs) = n).
  { apply (bins_unique hs); [|exact Hn]. apply (bins_count nb). split; [exact Hne|]. split; [exact Hnb|exact Hall]. }
  set (ha := map (map (adjust_length n)) hs).
  assert (Hha : energies (length taps) n (hist_direction ha n)).
  { unfold hist_direction. split; [rewrite map_length; unfold ha; rewrite map_length; lia|].
    apply Forall_map. apply Forall_forall. intros h Hin. split; [rewrite map_length, seq_length; reflexivity|].
    unfold ha in Hin. apply in_map_iff in Hin. destruct Hin as (g & <- & Hg). destruct (Hall' g Hg) as [len [Eg1 Eg2]].
    apply Forall_map. apply Forall_forall. intros j _. apply Rsum_nonneg. unfold column. apply Forall_map. apply Forall_map.
    apply Forall_forall. intros row Hrow. cbv beta. rewrite nth_adjust. destruct (j <? n)%nat; [|lra].
    destruct (In_nth _ _ [] Hrow) as (b & _ & <-). apply (energies_nth nb len). split; assumption. }
  assert (Htne : taps <> []) by (intro Q; subst taps; destruct hs; [congruence|discriminate]).
  assert (Hbf : s_bin_size s * s_fs s = INR (s_hbss s)) by (rewrite Hb; field; lra).
  destruct (C94_sequence (s_fs s) t0 (s_bin_size s) times taps (hist_direction ha n) d n_taps n Hf ltac:(lra) ltac:(lra) Ho Hd Htne Hr3 Hha Hn0)
    as (y & dirs & Ey & Ly & _ & _ & _).
  destruct (C93_times _ _ _ _ _ _ _ _ _ HV Hc Hm H0 HN Hz Hp) as (_ & _ & Hlast & _).
  assert (LyN : (N <= length y)%nat).
  { rewrite Ly. apply Nat.le_trans with (last (indices (s_fs s) times) 0%nat); [|lia].
    destruct Ho as (Tne & _ & _). rewrite last_nth. unfold indices at 1. rewrite map_length.
    assert (Tl : (0 < length times)%nat) by (destruct times; [congruence|cbn; lia]).
    rewrite nth_indices by lia. rewrite <- last_nth. unfold delta_index.
    replace N with (Z.to_nat (Z.of_nat N)) by apply Nat2Z.id. apply Z2Nat.inj_le; [lia| |].
    - apply Zfloor_nonneg. apply Rmult_le_pos; lra.
    - rewrite <- (Zfloor_unique (INR N) (Z.of_nat N)) by (rewrite <- INR_IZR_INZ; lra). apply Zfloor_le.
      apply Rle_trans with ((t0 + INR N / s_fs s) * s_fs s); [|apply Rmult_le_compat_r; lra].
      rewrite Rmult_plus_distr_r. unfold Rdiv. rewrite Rmult_assoc, Rinv_l by lra. nra. }
  exists y. split; [exact Ey|]. split; [exact LyN|].
  unfold compute_rt_rir. rewrite Hcount. destruct (Nat.eqb_spec n 0); [lia|]. destruct (Nat.eqb_spec (s_hbss s) 0); [lia|].
  assert (Hceil : Z.to_nat (Zceil (INR n * s_bin_size s * s_fs s / INR (s_hbss s))) = n).
  { replace (INR n * s_bin_size s * s_fs s / INR (s_hbss s)) with (INR n) by (rewrite Hb; field; lra).
    rewrite (Zceil_unique (INR n) (Z.of_nat n)) by (rewrite <- INR_IZR_INZ; lra). apply Nat2Z.id. }
  rewrite Hceil. cbv zeta. fold N ha.
  assert (Hnb' : length (nth 0 hs []) = nb).
  { destruct hs as [|h hs']; [congruence|]. cbn. destruct (Hall' h (or_introl eq_refl)) as [len [E1 _]]. exact E1. }
  rewrite Hnb', Hr1. cbn [bind]. rewrite Hp. cbn [bind fst snd]. rewrite Ey. cbn [bind].
  set (x := firstn N y). assert (Lx : length x = N) by (unfold x; rewrite firstn_length; lia).
  set (env b := match interp_hist (hist_band ha n b) N with Some o => o | None => [] end).
  assert (Henv : forall b, interp_hist (hist_band ha n b) N = Some (env b) /\ length (env b) = N).
  { intro b. unfold env. destruct (interp_hist_shape (hist_band ha n b) (s_hbss s) n) as (o & E & L & _); [unfold hist_band; now rewrite map_length, seq_length|exact Hn0|exact Hh|].
    fold N in E, L. rewrite E. split; [reflexivity|exact L]. }
  set (src b := if (1 <? nb)%nat then s_analysis s b x else x).
  assert (Lsrc : forall b, length (src b) = N) by (intro b; unfold src; destruct (1 <? nb)%nat; [rewrite Han|]; exact Lx).
  set (shaped b := map2 Rmult (src b) (map (fun v => sqrt (Rmax v 0)) (env b))).
  assert (Lsh : forall b, length (shaped b) = N). { intro b. unfold shaped. rewrite map2_length; [apply Lsrc|]. rewrite map_length, Lsrc. symmetry. apply Henv. }
  assert (HM : mapM (fun b => let* hist := interp_hist (hist_band ha n b) N in
      mult_rows (if (1 <? nb)%nat then s_analysis s b x else x) (map (fun v => sqrt (Rmax v 0)) hist)) (seq 0 nb) = Some (map shaped (seq 0 nb))).
  { rewrite <- mapM_total. apply mapM_ext_in. intros b _. destruct (Henv b) as [E L]. rewrite E. cbn [bind].
    unfold mult_rows. fold (src b). rewrite Lsrc, map_length, L, Nat.eqb_refl. reflexivity. }
  rewrite HM. cbn [bind]. destruct air as [co|].
  - specialize (Hair co eq_refl). destruct (Nat.eqb_spec nb 1) as [B1|B1].
    + rewrite nth_map_seq by lia.
      set (rb := map (fun b => s_analysis s b (shaped 0%nat)) (seq 0 (s_bank s))).
      assert (Lrb : length rb = s_bank s) by (unfold rb; now rewrite map_length, seq_length).
      rewrite Lrb, Hair, Nat.eqb_refl.
      assert (HA : mapM (fun b => mult_rows (nth b rb []) (map (air_gain s (nth b co 0)) (seq 0 N))) (seq 0 (s_bank s)) =
                   Some (map (fun b => map2 Rmult (s_analysis s b (shaped 0%nat)) (map (air_gain s (nth b co 0)) (seq 0 N))) (seq 0 (s_bank s)))).
      { rewrite <- mapM_total. apply mapM_ext_in. intros b Hb'. apply in_seq in Hb'. unfold rb. rewrite nth_map_seq by lia.
        unfold mult_rows. rewrite Han, Lsh, map_length, seq_length, Nat.eqb_refl. reflexivity. }
      rewrite HA. cbn [bind]. do 2 f_equal. apply map_ext_in. intros i Hi. apply in_seq in Hi.
      rewrite column_at, map_length, seq_length. unfold rir_of. fold N. destruct (Nat.eqb_spec nb 1); [|lia].
      apply Rsum_map_ext. intros b Hb'. apply in_seq in Hb'. rewrite nth_map_seq by lia.
      rewrite map2_nth by (rewrite Han, Lsh, map_length, seq_length; reflexivity). f_equal. now rewrite nth_map_seq by lia.
    + rewrite map_length, seq_length, Hair, Nat.eqb_refl.
      assert (HA : mapM (fun b => mult_rows (nth b (map shaped (seq 0 nb)) []) (map (air_gain s (nth b co 0)) (seq 0 N))) (seq 0 nb) =
                   Some (map (fun b => map2 Rmult (shaped b) (map (air_gain s (nth b co 0)) (seq 0 N))) (seq 0 nb))).
      { rewrite <- mapM_total. apply mapM_ext_in. intros b Hb'. apply in_seq in Hb'. rewrite nth_map_seq by lia.
        unfold mult_rows. rewrite Lsh, map_length, seq_length, Nat.eqb_refl. reflexivity. }
      rewrite HA. cbn [bind]. do 2 f_equal. apply map_ext_in. intros i Hi. apply in_seq in Hi.
      rewrite column_at, map_length, seq_length. unfold rir_of. fold N. destruct (Nat.eqb_spec nb 1); [lia|].
      apply Rsum_map_ext. intros b Hb'. apply in_seq in Hb'. rewrite nth_map_seq by lia.
      rewrite map2_nth by (rewrite Lsh, map_length, seq_length; reflexivity). f_equal. now rewrite nth_map_seq by lia.
  - cbn [bind]. do 2 f_equal. apply map_ext_in. intros i Hi.
    rewrite column_at, map_length, seq_length. unfold rir_of. apply Rsum_map_ext. intros b Hb'. apply in_seq in Hb'.
    rewrite nth_map_seq by lia. reflexivity.
Qed.

(** Without energy the response is just the delay of the fractional delay filters. *)
Theorem C95_no_energy : forall s fuel t0 hs resp air z d n_bands, histograms_ok n_bands hs -> n_bins_is hs 0 ->
  compute_rt_rir s fuel t0 hs resp air z d = Some (repeat 0 (s_fdl s / 2)).
Proof.
  intros s fuel t0 hs resp air z d nb H H0. unfold compute_rt_rir.
  rewrite (bins_unique hs _ _ (bins_count nb hs H) H0). reflexivity.
Qed.

(** With energy in [n] bins a response is always found, with [n] bins of samples after a delay of half
    the length of the fractional delay filters, in which it is silent. *)
Theorem C95_runs : forall s t0 hs resp taps air z q n n_bands,
  setup_ok s -> 0 < t0 -> 0 < q < 1 -> (forall i, 0 < z i <= q) -> histograms_ok n_bands hs ->
  n_bins_is hs n -> (0 < n)%nat -> responses_are s (length hs) n_bands resp taps ->
  (forall co, air = Some co -> length co = if Nat.eqb n_bands 1 then s_bank s else n_bands) ->
  exists fuel m, forall fuel' d, (fuel <= fuel')%nat -> well_drawn m d ->
    exists r, compute_rt_rir s fuel' t0 hs resp air z d = Some r /\ length r = (s_fdl s / 2 + n * s_hbss s)%nat /\
      forall i, (i < s_fdl s / 2)%nat -> nth i r 0 = 0.
Proof.
  intros s t0 hs resp taps air z q n nb Hs H0 Hq Hz Hh Hn Hn0 Hr Ha.
  pose proof Hs as (Hf & Hc & HV & _). assert (Hm : 0 < 10000) by lra.
  destruct (C93_ends (s_volume s) (INR (n * s_hbss s) / s_fs s) (s_c s) 10000 t0 z q HV Hc Hm H0 Hq Hz) as (fuel & times & Hp).
  exists fuel, (length times). intros fuel' d Hle Hd.
  assert (Hz' : forall i, 0 < z i < 1) by (intro i; pose proof (Hz i); lra).
  destruct (compute_master s fuel' t0 hs resp taps air z d n nb times Hs H0 Hz' Hh Hn Hn0 Hr (Hp fuel' Hle) Hd Ha) as (y & _ & _ & E).
  eexists. split; [exact E|]. split.
  - now rewrite app_length, repeat_length, map_length, seq_length.
  - intros i Hi. rewrite app_nth1 by (rewrite repeat_length; exact Hi). apply nth_repeat.
Qed.

(** The envelope of the response in a band: the energies of the bins as a broken line. *)
Definition envelope (hs : list (list vec)) (n h b : nat) (env : nat -> R) : Prop :=
  (forall i, (i < h / 2)%nat -> env i = band_energy hs b 0) /\
  (forall i, (h / 2 <= i < n * h - h / 2)%nat -> on_polyline n (anchor (n * h) n) (band_energy hs b) (INR i) (env i)) /\
  (forall i, (n * h - h / 2 <= i < n * h)%nat -> env i = 0) /\
  (forall i, 0 <= env i).

(** The noise: signed deltas at the random times, through the responses of the directions drawn, scaled
    by the density of deltas. *)
Definition noise (fs : R) (h : nat) (times sg : vec) (dirs : list nat) (taps : list vec) (k : nat) : R :=
  let idx := indices fs times in
  Rsum (map (fun j => nth j sg 0 * sqrt (2 / INR (crowd idx h (nth j idx 0%nat))) *
      at_time (nth (nth j dirs 0%nat) taps []) (Z.of_nat k - Z.of_nat (nth j idx 0%nat))) (seq 0 (length times))).

Lemma band_energy_hist : forall hs n b j, (j < n)%nat -> nth j (hist_band (map (map (adjust_length n)) hs) n b) 0 = band_energy hs b j.
Proof.
  intros hs n b j Hj. unfold hist_band, band_energy. rewrite nth_map_seq by exact Hj. rewrite map_map. apply Rsum_map_ext. intros h _.
  assert (Q : nth b (map (adjust_length n) h) [] = adjust_length n (nth b h []) \/ (length h <= b)%nat).
  { destruct (Nat.lt_ge_cases b (length h)) as [L|L]; [left|now right].
    rewrite (nth_indep _ [] (adjust_length n [])) by (rewrite map_length; exact L). apply map_nth. }
  destruct Q as [-> |Q].
  - rewrite nth_adjust. destruct (Nat.ltb_spec j n); [reflexivity|lia].
  - rewrite !(nth_overflow _ []) by (rewrite ?map_length; exact Q). reflexivity.
Qed.

Lemma band_energy_nonneg : forall nb hs b j, histograms_ok nb hs -> 0 <= band_energy hs b j.
Proof.
  intros nb hs b j (_ & _ & H). unfold band_energy. apply Rsum_nonneg. apply Forall_map. eapply Forall_impl; [|exact H].
  intros h [len E]. apply (energies_nth nb len). exact E.
Qed.

Lemma envelope_ok : forall nb hs n h b, histograms_ok nb hs -> (2 <= n)%nat -> (2 <= h)%nat ->
  exists out, interp_hist (hist_band (map (map (adjust_length n)) hs) n b) (n * h) = Some out /\ length out = (n * h)%nat /\
    envelope hs n h b (fun i => nth i out 0).
Proof.
  intros nb hs n h b Hhs Hn Hh. set (H := hist_band _ n b).
  assert (LH : length H = n) by (unfold H, hist_band; now rewrite map_length, seq_length).
  destruct (C92_interp H n h LH Hn Hh) as (out & E & L & O1 & O2 & _).
  destruct (C92_tail H n h LH ltac:(lia) Hh) as (out' & E' & O3). assert (out' = out) by congruence. subst out'.
  assert (B : forall k, (k < n)%nat -> nth k H 0 = band_energy hs b k) by (intros; now apply band_energy_hist).
  assert (PL : forall i, (h / 2 <= i < n * h - h / 2)%nat -> on_polyline n (anchor (n * h) n) (band_energy hs b) (INR i) (nth i out 0)).
  { intros i Hi. destruct (O2 i Hi) as (k & lam & K1 & K2 & K3 & K4). exists k, lam. repeat split; try tauto; try lra.
    rewrite K4, !B by lia. reflexivity. }
  exists out. split; [exact E|]. split; [exact L|]. split; [|split; [exact PL|split; [exact O3|]]].
  - intros i Hi. rewrite O1 by exact Hi. apply B. lia.
  - intro i. pose proof (band_energy_nonneg nb hs b) as P.
    destruct (Nat.lt_ge_cases i (h / 2)) as [J|J]; [rewrite O1, B by (exact J || lia); apply P; exact Hhs|].
    destruct (Nat.lt_ge_cases i (n * h - h / 2)) as [K|K].
    + destruct (PL i ltac:(lia)) as (k & lam & K1 & K2 & K3 & ->). pose proof (P k Hhs). pose proof (P (S k) Hhs). nra.
    + destruct (Nat.lt_ge_cases i (n * h)) as [M|M]; [rewrite O3 by lia; lra|]. rewrite nth_overflow by lia. lra.
Qed.

Lemma nth_firstn_lt : forall (l : vec) k a, (k < a)%nat -> nth k (firstn a l) 0 = nth k l 0.
Proof. induction l as [|u l IHl]; intros [|k] [|a] H; cbn; try lia; auto. apply IHl. lia. Qed.

Section Samples.
Variables (s : setup) (fuel : nat) (t0 : R) (hs : list (list vec)) (resp : responses) (taps : list vec) (z : nat -> R) (d : draws)
  (n n_bands : nat) (times : vec).
Let h := s_hbss s.
Hypotheses (Hs : setup_ok s) (H0 : 0 < t0) (Hz : forall i, 0 < z i < 1) (Hhs : histograms_ok n_bands hs)
  (Hn : n_bins_is hs n) (Hn2 : (2 <= n)%nat) (Hr : responses_are s (length hs) n_bands resp taps)
  (Hp : poisson_sequence fuel (s_volume s) (INR (n * h) / s_fs s) (s_c s) 10000 (Some t0) z = Some (t0, times))
  (Hd : well_drawn (length times) d).

Lemma setup_h : Z.to_nat (Zfloor (s_bin_size s * s_fs s)) = h.
Proof.
  destruct Hs as (Hf & _ & _ & _ & Hb & _). rewrite Hb. replace (INR (s_hbss s) / s_fs s * s_fs s) with (INR (s_hbss s)) by (field; lra).
  rewrite (Zfloor_unique _ (Z.of_nat (s_hbss s))) by (rewrite <- INR_IZR_INZ; lra). apply Nat2Z.id.
Qed.

(** The direction histogram used for a delta at time [t]. *)
Definition directions_at (t : R) : vec := map (fun g => Rsum (map (fun row => nth (delta_bin t0 (s_bin_size s) n t) row 0) g)) hs.

Lemma directions_column : forall t, column (hist_direction (map (map (adjust_length n)) hs) n) (delta_bin t0 (s_bin_size s) n t) = directions_at t.
Proof.
  intro t. unfold directions_at, column, hist_direction. rewrite !map_map. apply map_ext. intro g.
  assert (B : (delta_bin t0 (s_bin_size s) n t < n)%nat) by (unfold delta_bin; lia).
  rewrite nth_map_seq by exact B. unfold column. rewrite map_map. apply Rsum_map_ext. intros row _. rewrite nth_adjust.
  destruct (Nat.ltb_spec (delta_bin t0 (s_bin_size s) n t) n); [reflexivity|lia].
Qed.

Lemma sequence_ok : exists y dirs,
  directional_sequence (s_fs s) t0 (s_bin_size s) times taps (hist_direction (map (map (adjust_length n)) hs) n) d = Some y /\
  (forall j, (j < length times)%nat -> drawn (weights (directions_at (nth j times 0))) (nth j (d_dir d) 0) (nth j dirs 0%nat)) /\
  (forall k, nth k y 0 = noise (s_fs s) h times (d_sign2 d) dirs taps k).
Proof.
  pose proof Hs as (Hf & Hc & HV & Hh & Hb & Han). destruct (responses_found _ _ _ _ _ Hr) as (Hr1 & Hr2 & n_taps & Hr3).
  assert (Hm : 0 < 10000) by lra.
  assert (HN : 0 <= INR (n * h) / s_fs s) by (apply Rmult_le_pos; [apply pos_INR|left; now apply Rinv_0_lt_compat]).
  pose proof (in_order_loop _ _ _ _ _ _ _ _ _ HV Hc Hm H0 HN Hz Hp) as Ho.
  pose proof Hhs as (Hne & Hnb & Hall). rewrite Forall_forall in Hall.
  set (ha := map (map (adjust_length n)) hs).
  assert (Hha : energies (length taps) n (hist_direction ha n)).
  { unfold hist_direction. split; [rewrite map_length; unfold ha; rewrite map_length; lia|].
    apply Forall_map. apply Forall_forall. intros g Hin. split; [rewrite map_length, seq_length; reflexivity|].
    unfold ha in Hin. apply in_map_iff in Hin. destruct Hin as (g' & <- & Hg). destruct (Hall g' Hg) as [len [Eg1 Eg2]].
    apply Forall_map. apply Forall_forall. intros j _. apply Rsum_nonneg. unfold column. apply Forall_map. apply Forall_map.
    apply Forall_forall. intros row Hrow. cbv beta. rewrite nth_adjust. destruct (j <? n)%nat; [|lra].
    destruct (In_nth _ _ [] Hrow) as (b & _ & <-). apply (energies_nth n_bands len). split; assumption. }
  assert (Htne : taps <> []) by (intro Q; subst taps; destruct hs; [congruence|discriminate]).
  assert (Hh2 : 2 <= INR (s_hbss s)) by (apply le_INR in Hh; cbn [INR] in Hh; lra).
  assert (Hbf : s_bin_size s * s_fs s = INR (s_hbss s)) by (rewrite Hb; field; lra).
  destruct (C94_sequence (s_fs s) t0 (s_bin_size s) times taps (hist_direction ha n) d n_taps n Hf ltac:(lra) ltac:(lra) Ho Hd Htne Hr3 Hha ltac:(lia))
    as (y & dirs & Ey & Ly & Dr & _ & Ny).
  exists y, dirs. split; [exact Ey|]. split.
  - intros j Hj. rewrite <- directions_column. apply Dr. exact Hj.
  - intro k. rewrite Ny. unfold noise. rewrite setup_h. reflexivity.
Qed.

(** One band, no air absorption: each sample is the noise times the square root of the envelope. *)
Theorem C95_one_band : n_bands = 1%nat ->
  exists r dirs env, compute_rt_rir s fuel t0 hs resp None z d = Some r /\
    (forall j, (j < length times)%nat -> drawn (weights (directions_at (nth j times 0))) (nth j (d_dir d) 0) (nth j dirs 0%nat)) /\
    envelope hs n h 0 env /\
    forall i, (i < n * h)%nat -> nth (s_fdl s / 2 + i) r 0 = noise (s_fs s) h times (d_sign2 d) dirs taps i * sqrt (env i).
Proof.
  intro Hb1. pose proof Hs as (_ & _ & _ & Hh & _).
  destruct (compute_master s fuel t0 hs resp taps None z d n n_bands times Hs H0 Hz Hhs Hn ltac:(lia) Hr Hp Hd ltac:(discriminate)) as (y & Ey & Ly & E).
  destruct sequence_ok as (y' & dirs & Ey' & Dr & Ny). assert (y' = y) by congruence. subst y'.
  destruct (envelope_ok n_bands hs n h 0 Hhs Hn2 Hh) as (out & Eo & Lo & En).
  eexists _, dirs, _. split; [exact E|]. split; [exact Dr|]. split; [exact En|]. intros i Hi.
  rewrite app_nth2; rewrite repeat_length; [|lia]. replace (s_fdl s / 2 + i - s_fdl s / 2)%nat with i by lia.
  fold h. rewrite nth_map_seq by exact Hi. unfold rir_of. fold h. rewrite Hb1. cbn [seq map].
  change (1 <? 1)%nat with false. cbv iota. rewrite Eo.
  set (x := firstn (n * h) y). assert (Lx : length x = (n * h)%nat) by (unfold x; rewrite firstn_length; fold h in Ly; lia).
  rewrite map2_nth by (rewrite map_length; lia). unfold x. rewrite nth_firstn_lt by exact Hi. rewrite Ny.
  assert (Q : nth i (map (fun v => sqrt (Rmax v 0)) out) 0 = sqrt (nth i out 0)).
  { rewrite (nth_indep _ 0 (sqrt (Rmax 0 0))) by (rewrite map_length; lia). rewrite (map_nth (fun v => sqrt (Rmax v 0))).
    f_equal. apply Rmax_left. destruct En as (_ & _ & _ & P). apply P. }
  rewrite Q. unfold Rsum. cbn [fold_right]. lra.
Qed.

(** Nothing arrives before the direct sound. *)
Theorem C95_causal : n_bands = 1%nat -> forall r, compute_rt_rir s fuel t0 hs resp None z d = Some r ->
  forall i, (Z.of_nat i < Zfloor (t0 * s_fs s))%Z -> nth (s_fdl s / 2 + i) r 0 = 0.
Proof.
  intros Hb1 r Er i Hi. destruct (C95_one_band Hb1) as (r' & dirs & env & E & _ & _ & F). assert (r' = r) by congruence. subst r'.
  destruct (Nat.lt_ge_cases i (n * h)) as [L|L].
  - rewrite F by exact L. unfold noise. rewrite Rsum_map_zero; [lra|]. intros j Hj. apply in_seq in Hj.
    pose proof Hs as (Hf & Hc & HV & _). assert (Hm : 0 < 10000) by lra.
    assert (HN : 0 <= INR (n * h) / s_fs s) by (apply Rmult_le_pos; [apply pos_INR|left; now apply Rinv_0_lt_compat]).
    destruct (in_order_loop _ _ _ _ _ _ _ _ _ HV Hc Hm H0 HN Hz Hp) as (_ & Ge & _).
    rewrite nth_indices by lia. pose proof (nth_forall _ _ j Ge ltac:(lia)) as G. cbn in G.
    unfold at_time, delta_index. assert (Q : (Zfloor (t0 * s_fs s) <= Zfloor (nth j times 0%R * s_fs s))%Z) by (apply Zfloor_le, Rmult_le_compat_r; lra).
    set (q := Zfloor (nth j times 0 * s_fs s)) in *. destruct (Z.ltb_spec (Z.of_nat i - Z.of_nat (Z.to_nat q)) 0); [lra|lia].
  - apply nth_overflow.
    destruct (compute_master s fuel t0 hs resp taps None z d n n_bands times Hs H0 Hz Hhs Hn ltac:(lia) Hr Hp Hd ltac:(discriminate)) as (y & _ & _ & E').
    assert (R : r = repeat 0 (s_fdl s / 2) ++ map (rir_of s n n_bands hs None (firstn (n * s_hbss s) y)) (seq 0 (n * s_hbss s))) by congruence.
    rewrite R, app_length, repeat_length, map_length, seq_length. fold h. lia.
Qed.

(** Several bands: the noise is filtered into the bands, each is shaped by its own envelope, attenuated by
    the air according to the distance travelled since the emission, and all are added. *)
Theorem C95_bands : (2 <= n_bands)%nat -> forall air, (forall co, air = Some co -> length co = n_bands) ->
  exists r dirs x env, compute_rt_rir s fuel t0 hs resp air z d = Some r /\
    (forall j, (j < length times)%nat -> drawn (weights (directions_at (nth j times 0))) (nth j (d_dir d) 0) (nth j dirs 0%nat)) /\
    (forall b, envelope hs n h b (env b)) /\
    length x = (n * h)%nat /\ (forall i, (i < n * h)%nat -> nth i x 0 = noise (s_fs s) h times (d_sign2 d) dirs taps i) /\
    forall i, (i < n * h)%nat -> nth (s_fdl s / 2 + i) r 0 =
      Rsum (map (fun b => nth i (s_analysis s b x) 0 * sqrt (env b i) *
        match air with None => 1 | Some co => exp (- / 2 * nth b co 0 * (s_c s * (INR i / s_fs s))) end) (seq 0 n_bands)).
Proof.
  intros Hb2 air Ha. pose proof Hs as (Hf & _ & _ & Hh & _ & Han).
  assert (Ha' : forall co, air = Some co -> length co = if Nat.eqb n_bands 1 then s_bank s else n_bands).
  { intros co Q. destruct (Nat.eqb_spec n_bands 1); [lia|auto]. }
  destruct (compute_master s fuel t0 hs resp taps air z d n n_bands times Hs H0 Hz Hhs Hn ltac:(lia) Hr Hp Hd Ha') as (y & Ey & Ly & E).
  destruct sequence_ok as (y' & dirs & Ey' & Dr & Ny). assert (y' = y) by congruence. subst y'.
  set (x := firstn (n * h) y). assert (Lx : length x = (n * h)%nat) by (unfold x; rewrite firstn_length; fold h in Ly; lia).
  set (out b := match interp_hist (hist_band (map (map (adjust_length n)) hs) n b) (n * h) with Some o => o | None => [] end).
  assert (Ho : forall b, length (out b) = (n * h)%nat /\ envelope hs n h b (fun i => nth i (out b) 0)).
  { intro b. destruct (envelope_ok n_bands hs n h b Hhs Hn2 Hh) as (o & Eo & Lo & En). unfold out. rewrite Eo. split; assumption. }
  eexists _, dirs, x, (fun b i => nth i (out b) 0). split; [exact E|]. split; [exact Dr|]. split; [intro b; apply Ho|]. split; [exact Lx|].
  split; [intros i Hi; unfold x; rewrite nth_firstn_lt by exact Hi; apply Ny|]. intros i Hi.
  rewrite app_nth2; rewrite repeat_length; [|lia]. replace (s_fdl s / 2 + i - s_fdl s / 2)%nat with i by lia.
  fold h. rewrite nth_map_seq by exact Hi. unfold rir_of. fold h. fold x.
  assert (Sh : forall b, nth i (map2 Rmult (if (1 <? n_bands)%nat then s_analysis s b x else x) (map (fun v => sqrt (Rmax v 0)) (out b))) 0 =
    nth i (s_analysis s b x) 0 * sqrt (nth i (out b) 0)).
  { intro b. destruct (Nat.ltb_spec 1 n_bands); [|lia]. destruct (Ho b) as [Lo (_ & _ & _ & P)].
    rewrite map2_nth by (rewrite Han, map_length; lia). f_equal.
    rewrite (nth_indep _ 0 (sqrt (Rmax 0 0))) by (rewrite map_length; lia). rewrite (map_nth (fun v => sqrt (Rmax v 0))).
    f_equal. apply Rmax_left. apply P. }
  destruct air as [co|].
  - destruct (Nat.eqb_spec n_bands 1); [lia|]. apply Rsum_map_ext. intros b _. fold (out b). rewrite Sh. f_equal.
    unfold air_gain. f_equal. field. lra.
  - apply Rsum_map_ext. intros b _. fold (out b). rewrite Sh. lra.
Qed.
(** One band, with air absorption: the shaped noise is filtered into the bands of the air coefficients. *)
Theorem C95_air : n_bands = 1%nat -> forall co, length co = s_bank s ->
  exists r dirs x env, compute_rt_rir s fuel t0 hs resp (Some co) z d = Some r /\
    (forall j, (j < length times)%nat -> drawn (weights (directions_at (nth j times 0))) (nth j (d_dir d) 0) (nth j dirs 0%nat)) /\
    envelope hs n h 0 env /\ length x = (n * h)%nat /\
    (forall i, (i < n * h)%nat -> nth i x 0 = noise (s_fs s) h times (d_sign2 d) dirs taps i * sqrt (env i)) /\
    forall i, (i < n * h)%nat -> nth (s_fdl s / 2 + i) r 0 =
      Rsum (map (fun b => nth i (s_analysis s b x) 0 * exp (- / 2 * nth b co 0 * (s_c s * (INR i / s_fs s)))) (seq 0 (s_bank s))).
Proof.
  intros Hb1 co Hco. pose proof Hs as (Hf & _ & _ & Hh & _).
  assert (Ha : forall c0, Some co = Some c0 -> length c0 = if Nat.eqb n_bands 1 then s_bank s else n_bands).
  { intros c0 Q. rewrite Hb1. cbn. congruence. }
  destruct (compute_master s fuel t0 hs resp taps (Some co) z d n n_bands times Hs H0 Hz Hhs Hn ltac:(lia) Hr Hp Hd Ha) as (y & Ey & Ly & E).
  destruct sequence_ok as (y' & dirs & Ey' & Dr & Ny). assert (y' = y) by congruence. subst y'.
  destruct (envelope_ok n_bands hs n h 0 Hhs Hn2 Hh) as (out & Eo & Lo & En).
  set (w := firstn (n * h) y). assert (Lw : length w = (n * h)%nat) by (unfold w; rewrite firstn_length; fold h in Ly; lia).
  set (x := map2 Rmult w (map (fun v => sqrt (Rmax v 0)) out)).
  eexists _, dirs, x, _. split; [exact E|]. split; [exact Dr|]. split; [exact En|].
  split; [unfold x; rewrite map2_length; [exact Lw|rewrite map_length; lia]|]. split.
  - intros i Hi. unfold x. rewrite map2_nth by (rewrite map_length; lia). unfold w. rewrite nth_firstn_lt by exact Hi. rewrite Ny. f_equal.
    rewrite (nth_indep _ 0 (sqrt (Rmax 0 0))) by (rewrite map_length; lia). rewrite (map_nth (fun v => sqrt (Rmax v 0))).
    f_equal. apply Rmax_left. destruct En as (_ & _ & _ & P). apply P.
  - intros i Hi. rewrite app_nth2; rewrite repeat_length; [|lia]. replace (s_fdl s / 2 + i - s_fdl s / 2)%nat with i by lia.
    fold h. rewrite nth_map_seq by exact Hi. unfold rir_of. fold h. rewrite Hb1. change (Nat.eqb 1 1) with true.
    change (1 <? 1)%nat with false. cbv iota. rewrite Eo. fold w x. apply Rsum_map_ext. intros b _. f_equal.
    unfold air_gain. f_equal. field. lra.
Qed.
End Samples.

(** ** Scaling the histogram *)
Definition scaled (a : R) (hs : list (list vec)) : list (list vec) := map (map (map (Rmult a))) hs.

Lemma Rsum_scaled : forall a l, Rsum (map (Rmult a) l) = a * Rsum l.
Proof. intros a l. rewrite (Rsum_map_scal a (fun x => x)), map_id. reflexivity. Qed.
Lemma nth_scaled : forall a (l : vec) k, nth k (map (Rmult a) l) 0 = a * nth k l 0.
Proof. intros a l k. replace 0 with (a * 0) at 1 by ring. apply (map_nth (Rmult a)). Qed.
Lemma repeat_scaled : forall a v n, map (Rmult a) (repeat v n) = repeat (a * v) n.
Proof. intros a v n. induction n; cbn; [reflexivity|now rewrite IHn]. Qed.

Lemma tiny_pos : 0 < tiny.
Proof. unfold tiny. apply Rinv_0_lt_compat, pow_lt. lra. Qed.

Lemma cdf_scaled : forall a col, 0 < a -> Rsum col = 0 \/ (tiny < Rsum col /\ tiny < a * Rsum col) -> cdf (map (Rmult a) col) = cdf col.
Proof.
  intros a col Ha H. unfold cdf. rewrite Rsum_scaled, map_map. pose proof tiny_pos.
  destruct H as [E|[E1 E2]].
  - rewrite E, Rmult_0_r. destruct (Rlt_dec tiny 0); [lra|]. reflexivity.
  - destruct (Rlt_dec tiny (a * Rsum col)); [|lra]. destruct (Rlt_dec tiny (Rsum col)); [|lra].
    unfold cumsum. rewrite !map_map, map_length. apply map_ext. intro k. rewrite firstn_map, !Rsum_scaled. field. lra.
Qed.

Lemma column_scaled : forall a m j, column (map (map (Rmult a)) m) j = map (Rmult a) (column m j).
Proof. intros. unfold column. rewrite !map_map. apply map_ext. intro row. apply nth_scaled. Qed.

Lemma nth0_scaled : forall a (m : list vec), nth 0 (map (map (Rmult a)) m) [] = map (Rmult a) (nth 0 m []).
Proof. intros a [|r m]; reflexivity. Qed.

Lemma last_el_scaled : forall a h, 0 < a -> last_el (map (map (Rmult a)) h) = last_el h.
Proof.
  intros a h Ha. unfold last_el.
  assert (E : over_bands (map (map (Rmult a)) h) = map (Rmult a) (over_bands h)).
  { unfold over_bands. rewrite nth0_scaled, !map_map, map_length. apply map_ext. intro j. now rewrite column_scaled, Rsum_scaled. }
  rewrite E, map_length. set (x := over_bands h).
  assert (G : forall l acc, fold_left (fun n j => if Req_EM_T (nth j (map (Rmult a) x) 0) 0 then n else S j) l acc =
                           fold_left (fun n j => if Req_EM_T (nth j x 0) 0 then n else S j) l acc).
  { induction l as [|j l IH]; intro acc; [reflexivity|]. cbn [fold_left]. rewrite nth_scaled.
    destruct (Req_EM_T (a * nth j x 0) 0) as [Q|Q]; destruct (Req_EM_T (nth j x 0) 0) as [P|P]; try apply IH.
    - apply Rmult_integral in Q. lra.
    - rewrite P in Q. lra. }
  apply G.
Qed.

Lemma adjust_scaled : forall a n h, adjust_length n (map (Rmult a) h) = map (Rmult a) (adjust_length n h).
Proof. intros. unfold adjust_length. rewrite <- firstn_map, map_app, repeat_scaled, Rmult_0_r, map_length. reflexivity. Qed.

Lemma interp_scaled : forall a pts x, interp (map (fun p => (fst p, a * snd p)) pts) x = a * interp pts x.
Proof.
  intros a pts x. induction pts as [|[t1 y1] pts IH]; [cbn; ring|]. destruct pts as [|[t2 y2] pts]; [reflexivity|].
  cbn [map fst snd] in *. cbn [interp]. destruct (Rlt_dec x t2); [unfold Rdiv; ring|exact IH].
Qed.

Lemma interp_hist_scaled : forall a H N, interp_hist (map (Rmult a) H) N = option_map (map (Rmult a)) (interp_hist H N).
Proof.
  intros a H N. unfold interp_hist. rewrite map_length. destruct (Nat.eqb (length H) 0); [reflexivity|].
  destruct (Nat.eqb (N / length H / 2) 0).
  - destruct (Nat.eqb N 1); [|reflexivity]. cbn [option_map]. rewrite repeat_scaled. do 2 f_equal. ring.
  - cbn [option_map]. f_equal. set (p := (N / length H / 2)%nat). set (n := length H).
    set (F := map (fun i => interp (map (fun k => (anchor N n k, nth k H 0)) (seq 0 n)) (INR i)) (seq p (N - p - p))).
    assert (EF : map (fun i => interp (map (fun k => (anchor N n k, nth k (map (Rmult a) H) 0)) (seq 0 n)) (INR i)) (seq p (N - p - p)) = map (Rmult a) F).
    { unfold F. rewrite map_map. apply map_ext. intro i. rewrite <- interp_scaled, map_map. f_equal. apply map_ext. intro k. cbn [fst snd]. now rewrite nth_scaled. }
    rewrite EF. set (o1 := repeat 0 p ++ F ++ repeat 0 p).
    assert (E1 : repeat 0 p ++ map (Rmult a) F ++ repeat 0 p = map (Rmult a) o1).
    { unfold o1. rewrite !map_app, !repeat_scaled, Rmult_0_r. reflexivity. }
    rewrite E1, nth_scaled. set (o2 := repeat (nth p o1 0) p ++ skipn p o1).
    assert (E2 : repeat (a * nth p o1 0) p ++ skipn p (map (Rmult a) o1) = map (Rmult a) o2).
    { unfold o2. rewrite map_app, repeat_scaled, skipn_map. reflexivity. }
    rewrite E2, nth_scaled, map_app, repeat_scaled, firstn_map. reflexivity.
Qed.

Lemma sequence_same : forall fs t0 bs times taps h1 h2 d, length (nth 0 h1 []) = length (nth 0 h2 []) ->
  (forall t z, choose z (column h1 (delta_bin t0 bs (length (nth 0 h1 [])) t)) = choose z (column h2 (delta_bin t0 bs (length (nth 0 h1 [])) t))) ->
  directional_sequence fs t0 bs times taps h1 d = directional_sequence fs t0 bs times taps h2 d.
Proof.
  intros fs t0 bs times taps h1 h2 d HL HC. unfold directional_sequence. destruct (binary_sequence _ _ _) as [b|]; [|reflexivity]. cbn [bind].
  rewrite <- HL. set (m := length (nth 0 h1 [])) in *.
  assert (E1 : forall l, forallb (fun j => Nat.ltb (choose (nth j (d_dir d) 0) (column h1 (delta_bin t0 bs m (nth j times 0)))) (length taps)) l =
               forallb (fun j => Nat.ltb (choose (nth j (d_dir d) 0) (column h2 (delta_bin t0 bs m (nth j times 0)))) (length taps)) l).
  { induction l as [|j l IH]; [reflexivity|]. cbn [forallb]. rewrite HC. now f_equal. }
  rewrite E1. destruct (forallb _ _); [|reflexivity]. f_equal.
  set (norm := power_norm _).
  assert (E2 : forall j, delta fs t0 bs taps h1 norm d times j = delta fs t0 bs taps h2 norm d times j).
  { intro j. unfold delta. rewrite <- HL. fold m. now rewrite HC. }
  assert (E3 : forall l acc, fold_left (fun buf j => let '(i, x) := delta fs t0 bs taps h1 norm d times j in add_at buf i x) l acc =
                            fold_left (fun buf j => let '(i, x) := delta fs t0 bs taps h2 norm d times j in add_at buf i x) l acc).
  { induction l as [|j l IH]; intro acc; [reflexivity|]. cbn [fold_left]. rewrite E2. apply IH. }
  apply E3.
Qed.

Lemma sqrt_scaled : forall a v, 0 < a -> sqrt (Rmax (a * v) 0) = sqrt a * sqrt (Rmax v 0).
Proof.
  intros a v Ha. rewrite <- sqrt_mult_alt by lra. f_equal. destruct (Rle_dec v 0) as [L|L].
  - rewrite !Rmax_right by nra. ring.
  - rewrite !Rmax_left by nra. ring.
Qed.

Lemma mult_rows_scaled : forall a x e, 0 < a ->
  mult_rows x (map (fun v => sqrt (Rmax v 0)) (map (Rmult a) e)) =
  option_map (map (Rmult (sqrt a))) (mult_rows x (map (fun v => sqrt (Rmax v 0)) e)).
Proof.
  intros a x e Ha. unfold mult_rows. rewrite !map_length. destruct (Nat.eqb (length x) (length e)); [|reflexivity]. cbn [option_map]. f_equal.
  revert e. induction x as [|u x IH]; intros [|v e]; [reflexivity|reflexivity|reflexivity|]. cbn [map map2]. rewrite IH. f_equal.
  rewrite sqrt_scaled by exact Ha. ring.
Qed.

Lemma mapM_scaled : forall (f g : nat -> option vec) k l, (forall b, f b = option_map (map (Rmult k)) (g b)) ->
  mapM f l = option_map (map (map (Rmult k))) (mapM g l).
Proof.
  intros f g k l H. induction l as [|b l IH]; [reflexivity|]. cbn [mapM]. rewrite H, IH.
  destruct (g b); cbn [option_map bind]; [|reflexivity]. destruct (mapM g l); reflexivity.
Qed.

(** The energy of the response follows the energy of the histogram: [a] times the energy in all bins gives
    the same response multiplied by the square root of [a] (unless the total energy of some bin is
    between zero and the threshold [tiny]). *)
Theorem C95_scale : forall s fuel t0 hs resp z d a, 0 < a ->
  (forall j, bin_energy hs j = 0 \/ (tiny < bin_energy hs j /\ tiny < a * bin_energy hs j)) ->
  compute_rt_rir s fuel t0 (scaled a hs) resp None z d = option_map (map (Rmult (sqrt a))) (compute_rt_rir s fuel t0 hs resp None z d).
Proof.
  intros s fuel t0 hs resp z d a Ha HT. unfold compute_rt_rir, scaled.
  rewrite map_map. rewrite (map_ext (fun x => last_el (map (map (Rmult a)) x)) last_el) by (intro; now apply last_el_scaled).
  destruct (Nat.eqb (list_max_nat (map last_el hs)) 0).
  { cbn [option_map]. now rewrite repeat_scaled, Rmult_0_r. }
  destruct (Nat.eqb (s_hbss s) 0); [reflexivity|].
  set (n := Z.to_nat (Zceil _)). cbv zeta. rewrite map_length.
  assert (Lb : length (nth 0 (map (map (map (Rmult a))) hs) []) = length (nth 0 hs [])) by (destruct hs; [reflexivity|cbn; apply map_length]).
  rewrite Lb. destruct (responses_of _ _ _ _) as [taps|]; [|reflexivity]. cbn [bind].
  destruct (poisson_sequence _ _ _ _ _ _ _) as [[t times]|]; [|reflexivity]. cbn [bind fst snd].
  set (ha := map (map (adjust_length n)) hs).
  assert (Ea : map (map (adjust_length n)) (map (map (map (Rmult a))) hs) = map (map (map (Rmult a))) ha).
  { unfold ha. rewrite !map_map. apply map_ext. intro h. rewrite !map_map. apply map_ext. intro row. apply adjust_scaled. }
  rewrite Ea.
  assert (Ed : hist_direction (map (map (map (Rmult a))) ha) n = map (map (Rmult a)) (hist_direction ha n)).
  { unfold hist_direction. rewrite !map_map. apply map_ext. intro h. rewrite map_map. apply map_ext. intro j. now rewrite column_scaled, Rsum_scaled. }
  rewrite Ed.
  assert (Es : directional_sequence (s_fs s) t (s_bin_size s) times taps (map (map (Rmult a)) (hist_direction ha n)) d =
               directional_sequence (s_fs s) t (s_bin_size s) times taps (hist_direction ha n) d).
  { apply sequence_same.
    - rewrite nth0_scaled. apply map_length.
    - intros u z0. set (m := length _). set (j := delta_bin _ _ _ _). unfold choose. rewrite column_scaled, cdf_scaled; [reflexivity|exact Ha|].
      destruct (Nat.lt_ge_cases j n) as [K|K].
      + assert (Q : Rsum (column (hist_direction ha n) j) = bin_energy hs j); [|rewrite Q; apply HT].
        unfold column, hist_direction, bin_energy, ha. rewrite !map_map. apply Rsum_map_ext. intros h _. rewrite nth_map_seq by exact K.
        unfold column. rewrite map_map. apply Rsum_map_ext. intros row _. rewrite nth_adjust. destruct (Nat.ltb_spec j n); [reflexivity|lia].
      + left. unfold column. apply Rsum_map_zero. intros row Hrow. unfold hist_direction in Hrow. apply in_map_iff in Hrow.
        destruct Hrow as (h & <- & _). apply nth_overflow. rewrite map_length, seq_length. exact K. }
  rewrite Es. clear Es. destruct (directional_sequence _ _ _ _ _ _ _) as [y|]; [|reflexivity]. cbn [bind].
  set (N := (n * s_hbss s)%nat). set (nb := length (nth 0 hs [])). set (x := firstn N y).
  assert (Eb : forall b, hist_band (map (map (map (Rmult a))) ha) n b = map (Rmult a) (hist_band ha n b)).
  { intro b. unfold hist_band. rewrite map_map. apply map_ext. intro j. rewrite map_map, <- (Rsum_scaled a), map_map.
    apply Rsum_map_ext. intros h _. replace (nth b (map (map (Rmult a)) h) []) with (map (Rmult a) (nth b h [])); [apply nth_scaled|].
    symmetry. apply (map_nth (map (Rmult a)) h [] b). }
  rewrite (mapM_scaled _ (fun b => let* hist := interp_hist (hist_band ha n b) N in
     mult_rows (if (1 <? nb)%nat then s_analysis s b x else x) (map (fun v => sqrt (Rmax v 0)) hist)) (sqrt a)).
  - destruct (mapM _ _) as [rb|]; [|reflexivity]. cbn [option_map bind]. f_equal. rewrite map_app, repeat_scaled, Rmult_0_r. f_equal.
    rewrite map_map. apply map_ext. intro i. now rewrite column_scaled, Rsum_scaled.
  - intro b. rewrite Eb, interp_hist_scaled. destruct (interp_hist _ _) as [o|]; [|reflexivity]. cbn [option_map bind]. now apply mult_rows_scaled.
Qed.

(** A room of 60 m^3, two directions, one band, three bins of one millisecond at 8 kHz; the first sound
    arrives after one millisecond. *)
Definition ex_setup : setup := {| s_bin_size := INR 8 / 8000; s_hbss := 8; s_volume := 60; s_fdl := 81; s_c := 343; s_fs := 8000;
  s_analysis := fun _ x => x; s_bank := 7; s_synthesis := fun g => g |}.
Definition ex_hists : list (list vec) := [[[0; 1; / 2; 0]]; [[0; / 4; 0]]].

Lemma ex_ok : setup_ok ex_setup /\ histograms_ok 1 ex_hists /\ n_bins_is ex_hists 3 /\
  responses_are ex_setup (length ex_hists) 1 (Gains [1; - / 2]) [[1]; [- / 2]].
Proof.
  repeat split; cbn [ex_setup s_fs s_c s_volume s_hbss s_bin_size s_analysis]; try lra; try lia.
  - discriminate.
  - constructor; [exists 4%nat|constructor; [exists 3%nat|constructor]]; (split; [reflexivity|]); repeat constructor; cbn; lra.
  - intros j Hj. unfold bin_energy, ex_hists. cbn [map]. destruct j as [|[|[|[|j]]]]; try lia; unfold Rsum; cbn; [lra|].
    destruct j; lra.
  - intros _. unfold bin_energy, ex_hists, Rsum. cbn. lra.
  - exists 1%nat. repeat constructor.
  - exists (fun k => nth k [1; - / 2] 0). split; [left; split; reflexivity|]. intros [|[|k]] Hk; [reflexivity|reflexivity|cbn in Hk; lia].
Qed.

Example C95_ex : exists fuel d r, compute_rt_rir ex_setup fuel (/ 1000) ex_hists (Gains [1; - / 2]) None (fun _ => / 2) d = Some r /\
  length r = (40 + 24)%nat /\ forall i, (i < 8)%nat -> nth (40 + i) r 0 = 0.
Proof.
  destruct ex_ok as (A & B & C & D).
  assert (Hz : forall i : nat, 0 < (fun _ : nat => / 2) i <= / 2) by (intro; lra).
  destruct (C93_ends 60 (INR (3 * 8) / 8000) 343 10000 (/ 1000) (fun _ => / 2) (/ 2) ltac:(lra) ltac:(lra) ltac:(lra) ltac:(lra) ltac:(lra) Hz) as (f2 & l & Hp).
  set (dr := fun k => {| d_sign1 := repeat 1 k; d_dir := repeat (/ 2) k; d_sign2 := repeat (-1) k |}).
  assert (Hd : forall k, well_drawn k (dr k)).
  { intro k. unfold well_drawn, dr, signs. cbn. rewrite !repeat_length. repeat split; apply Forall_forall; intros x Hx; apply repeat_spec in Hx; subst; lra. }
  assert (Hz' : forall i : nat, 0 < (fun _ : nat => / 2) i < 1) by (intro; lra).
  assert (Ht : 0 < / 1000) by lra. pose proof (Hp f2 (Nat.le_refl _)) as Hl.
  assert (N3 : (0 < 3)%nat) by lia. assert (N2 : (2 <= 3)%nat) by lia.
  destruct (compute_master ex_setup f2 (/ 1000) ex_hists (Gains [1; - / 2]) [[1]; [- / 2]] None (fun _ => / 2) (dr (length l)) 3 1 l
    A Ht Hz' B C N3 D Hl (Hd _) ltac:(discriminate)) as (y & _ & _ & E).
  eexists f2, (dr (length l)), _. split; [exact E|]. split.
  - now rewrite app_length, repeat_length, map_length, seq_length.
  - intros i Hi. apply (C95_causal ex_setup f2 (/ 1000) ex_hists (Gains [1; - / 2]) [[1]; [- / 2]] (fun _ => / 2) (dr (length l)) 3 1 l
      A Ht Hz' B C N2 D Hl (Hd _) eq_refl _ E).
    rewrite (Zfloor_unique _ 8) by (cbn [ex_setup s_fs]; lra). lia.
Qed.

Print Assumptions C92_interp.
Print Assumptions C95_bands.
Print Assumptions C95_air.
Print Assumptions C95_scale.
