(** Proofs for [MeasureProps]. *)
From Coq Require Import List ZArith Lia Reals Lra Psatz Bool Permutation.
From Verif Require Import Base GeometryModel WallModel GeometryProofs MeasureModel MeasureSpec.
From Verif Require Import BaseProofs.
Import ListNotations.
Local Open Scope R_scope.

Lemma rcons : forall a l, Rsum (a :: l) = a + Rsum l. Proof. reflexivity. Qed.
Lemma rnil : Rsum [] = 0. Proof. reflexivity. Qed.
Lemma ln10_p : 0 < ln 10. Proof. rewrite <- ln_1. apply ln_increasing; lra. Qed.

(** ** Energy *)
Lemma cumsum_snoc : forall l acc x, cumsum acc (l ++ [x]) = cumsum acc l ++ [acc + Rsum l + x].
Proof.
  induction l as [|y l IH]; intros acc x; cbn [app cumsum]; [rewrite rnil; f_equal; ring|]. rewrite IH, rcons. cbn [app]. do 3 f_equal. ring.
Qed.
Lemma sum_rev : forall l, Rsum (rev l) = Rsum l.
Proof. induction l as [|x l IH]; [reflexivity|]. cbn [rev]. rewrite Rsum_app, IH, !rcons, rnil. ring. Qed.
Lemma schroeder_cons : forall x h, schroeder (x :: h) = energy_after (x :: h) 0 :: schroeder h.
Proof.
  intros x h. unfold schroeder. cbn [map rev]. rewrite cumsum_snoc, rev_app_distr. cbn [rev app]. f_equal.
  rewrite sum_rev. unfold energy_after. cbn [skipn map]. rewrite rcons. ring.
Qed.
Lemma schroeder_length : forall h, length (schroeder h) = length h.
Proof. induction h as [|x h IH]; [reflexivity|]. rewrite schroeder_cons. cbn. now rewrite IH. Qed.
Lemma schroeder_nth : forall h i, nth i (schroeder h) 0 = energy_after h i.
Proof.
  induction h as [|x h IH]; intros i; [destruct i; reflexivity|]. rewrite schroeder_cons. destruct i as [|i]; cbn [nth]; [reflexivity|]. rewrite IH. reflexivity.
Qed.
Lemma energy_nonneg : forall h i, 0 <= energy_after h i.
Proof.
  intros h i. unfold energy_after. generalize (skipn i h). intros l. induction l as [|x l IH]; cbn [map]; [rewrite rnil; lra|]. rewrite rcons. nra.
Qed.
Lemma energy_step : forall h i, energy_after h (S i) <= energy_after h i.
Proof.
  induction h as [|x h IH]; intros i; [unfold energy_after; rewrite !skipn_nil; lra|]. destruct i as [|i].
  - unfold energy_after. cbn [skipn map]. rewrite rcons. nra.
  - unfold energy_after in *. cbn [skipn]. apply IH.
Qed.
Lemma energy_desc : forall h i j, (i <= j)%nat -> energy_after h j <= energy_after h i.
Proof. intros h i j H. induction H as [|j H IH]; [lra|]. pose proof (energy_step h j). lra. Qed.
Lemma energy_out : forall h i, (length h <= i)%nat -> energy_after h i = 0.
Proof. intros h i H. unfold energy_after. rewrite skipn_all2 by exact H. reflexivity. Qed.

(** ** Sequences that do not increase *)
Definition desc (l : list R) : Prop := forall i j, (i <= j)%nat -> (j < length l)%nat -> nth j l 0 <= nth i l 0.
Lemma schroeder_desc : forall h, desc (schroeder h).
Proof. intros h i j H _. rewrite !schroeder_nth. now apply energy_desc. Qed.
Lemma fold_max : forall l i, (i <= fold_left Nat.max l i)%nat /\ (forall x, In x l -> (x <= fold_left Nat.max l i)%nat) /\ (In (fold_left Nat.max l i) (i :: l)).
Proof.
  induction l as [|y l IH]; intros i; cbn [fold_left]; [split; [lia|]; split; [intros x []|now left]|].
  destruct (IH (Nat.max i y)) as (H1 & H2 & H3). split; [lia|]. split.
  - intros x [<-|Hx]; [lia|]. now apply H2.
  - destruct H3 as [H3|H3]; [|right; now right]. rewrite <- H3. destruct (Nat.max_dec i y) as [->| ->]; [now left|right; now left].
Qed.
Lemma last_positive_spec : forall e, (exists i, (i < length e)%nat /\ 0 < nth i e 0) ->
  (last_positive e < length e)%nat /\ 0 < nth (last_positive e) e 0 /\ forall j, (j < length e)%nat -> 0 < nth j e 0 -> (j <= last_positive e)%nat.
Proof.
  intros e [i [Hi Hp]]. unfold last_positive. destruct (filter _ _) as [|k l] eqn:F.
  - exfalso. assert (In i []) as [] by (rewrite <- F; apply filter_In; split; [apply in_seq; lia|now apply Rltb_true]).
  - destruct (fold_max l k) as (H1 & H2 & H3). rewrite <- F in H3. apply filter_In in H3. destruct H3 as [H3 H4]. apply in_seq in H3. apply Rltb_true in H4.
    split; [lia|]. split; [exact H4|]. intros j Hj Hjp. assert (Hin : In j (k :: l)) by (rewrite <- F; apply filter_In; split; [apply in_seq; lia|now apply Rltb_true]).
    destruct Hin as [<-|Hin]; [exact H1|now apply H2].
Qed.
Lemma last_positive_unique : forall e k, (k < length e)%nat -> 0 < nth k e 0 -> (forall j, (k < j < length e)%nat -> nth j e 0 <= 0) -> last_positive e = k.
Proof.
  intros e k Hk Hp Hj. destruct (last_positive_spec e) as (H1 & H2 & H3); [eauto|]. pose proof (H3 k Hk Hp).
  destruct (Nat.eq_dec (last_positive e) k) as [|N]; [assumption|]. specialize (Hj (last_positive e) ltac:(lia)). lra.
Qed.
Lemma last_positive_none : forall e, (forall i, (i < length e)%nat -> nth i e 0 <= 0) -> last_positive e = length e.
Proof.
  intros e H. unfold last_positive. destruct (filter _ _) as [|k l] eqn:F; [reflexivity|].
  assert (Hin : In k (k :: l)) by now left. rewrite <- F in Hin. apply filter_In in Hin. destruct Hin as [H1 H2]. apply in_seq in H1. apply Rltb_true in H2. specialize (H k ltac:(lia)). lra.
Qed.
Lemma find_first : forall (f : nat -> bool) n k, find f (seq k n) = None /\ (forall i, (k <= i < k + n)%nat -> f i = false) \/
  exists i, find f (seq k n) = Some i /\ (k <= i < k + n)%nat /\ f i = true /\ forall j, (k <= j < i)%nat -> f j = false.
Proof.
  intros f. induction n as [|n IH]; intros k; cbn [seq find]; [left; split; [reflexivity|intros; lia]|].
  destruct (f k) eqn:E; [right; exists k; repeat split; auto; try lia; intros; lia|].
  destruct (IH (S k)) as [[H1 H2]|[i (H1 & H2 & H3 & H4)]].
  - left. split; [exact H1|]. intros i Hi. destruct (Nat.eq_dec i k) as [->|]; [exact E|apply H2; lia].
  - right. exists i. split; [exact H1|]. split; [lia|]. split; [exact H3|]. intros j Hj. destruct (Nat.eq_dec j k) as [->|]; [exact E|apply H4; lia].
Qed.
Lemma first_below_spec : forall x v, first_below x v = None /\ (forall i, (i < length x)%nat -> v <= nth i x 0) \/
  exists i, first_below x v = Some i /\ (i < length x)%nat /\ nth i x 0 < v /\ forall j, (j < i)%nat -> v <= nth j x 0.
Proof.
  intros x v. unfold first_below. destruct (find_first (fun i => Rltb (nth i x 0) v) (length x) 0) as [[H1 H2]|[i (H1 & H2 & H3 & H4)]].
  - left. split; [exact H1|]. intros i Hi. apply Rltb_false. apply H2. lia.
  - right. exists i. split; [exact H1|]. split; [lia|]. split; [now apply Rltb_true|]. intros j Hj. apply Rltb_false, H4. lia.
Qed.
Lemma first_below_unique : forall x v i, (i < length x)%nat -> nth i x 0 < v -> (forall j, (j < i)%nat -> v <= nth j x 0) -> first_below x v = Some i.
Proof.
  intros x v i Hi Hv Hj. destruct (first_below_spec x v) as [[_ H]|[k (H1 & H2 & H3 & H4)]]; [specialize (H i Hi); lra|].
  rewrite H1. f_equal. destruct (lt_eq_lt_dec k i) as [[L|L]|L]; [specialize (Hj k L); lra|exact L|specialize (H4 i L); lra].
Qed.
Lemma first_below_none : forall x v, (forall i, (i < length x)%nat -> v <= nth i x 0) -> first_below x v = None.
Proof. intros x v H. destruct (first_below_spec x v) as [[E _]|[i (_ & H2 & H3 & _)]]; [exact E|]. specialize (H i H2). lra. Qed.
Lemma nth_firstn : forall {A} n (l : list A) i d, (i < n)%nat -> nth i (firstn n l) d = nth i l d.
Proof. intros A. induction n as [|n IH]; intros l i d H; [lia|]. destruct l as [|x l]; [reflexivity|]. destruct i as [|i]; [reflexivity|]. cbn. apply IH. lia. Qed.
Lemma nth_skipn : forall {A} n (l : list A) i d, nth i (skipn n l) d = nth (n + i) l d.
Proof. intros A. induction n as [|n IH]; intros l i d; [reflexivity|]. destruct l as [|x l]; [destruct i; reflexivity|]. cbn. apply IH. Qed.

(** ** Regression *)
Definition cov (l : list (R * R)) : R := INR (length l) * Rsum (map (fun p => fst p * snd p) l) - Rsum (map fst l) * Rsum (map snd l).
Lemma cov_cons : forall x l, cov (x :: l) = cov l + Rsum (map (fun y => (fst y - fst x) * (snd y - snd x)) l).
Proof.
  intros x l. assert (E : Rsum (map (fun y => (fst y - fst x) * (snd y - snd x)) l) =
    Rsum (map (fun p => fst p * snd p) l) - snd x * Rsum (map fst l) - fst x * Rsum (map snd l) + INR (length l) * (fst x * snd x)).
  { induction l as [|y l IH]; [cbn; ring|]. cbn [map length]. rewrite !rcons, IH, S_INR. ring. }
  rewrite E. unfold cov. cbn [map length]. rewrite !rcons, S_INR. ring.
Qed.
Lemma cov_nonneg : forall l, (forall i j, (i <= j < length l)%nat -> fst (nth i l (0, 0)) <= fst (nth j l (0, 0)) /\ snd (nth i l (0, 0)) <= snd (nth j l (0, 0))) -> 0 <= cov l.
Proof.
  induction l as [|x l IH]; intros H; [unfold cov; cbn; lra|]. rewrite cov_cons.
  assert (0 <= cov l) by (apply IH; intros i j Hij; apply (H (S i) (S j)); cbn; lia).
  assert (0 <= Rsum (map (fun y => (fst y - fst x) * (snd y - snd x)) l)); [|lra].
  assert (G : forall y, In y l -> fst x <= fst y /\ snd x <= snd y).
  { intros y Hy. destruct (In_nth _ _ (0, 0) Hy) as [k [Hk <-]]. apply (H 0%nat (S k)). cbn. lia. }
  clear - G. induction l as [|y l IH]; cbn [map]; [rewrite rnil; lra|]. rewrite rcons. specialize (IH (fun z Hz => G z (or_intror Hz))). destruct (G y (or_introl eq_refl)). nra.
Qed.
Lemma cov_pos : forall l, (2 <= length l)%nat -> (forall i j, (i < j < length l)%nat -> fst (nth i l (0, 0)) < fst (nth j l (0, 0)) /\ snd (nth i l (0, 0)) < snd (nth j l (0, 0))) -> 0 < cov l.
Proof.
  intros l Hl H. destruct l as [|x [|y l]]; [cbn in Hl; lia|cbn in Hl; lia|]. rewrite cov_cons. cbn [map]. rewrite rcons.
  assert (0 <= cov (y :: l)).
  { apply cov_nonneg. intros i j Hij. destruct (Nat.eq_dec i j) as [->|]; [lra|]. specialize (H (S i) (S j) ltac:(cbn in *; lia)). cbn [nth] in H |- *. lra. }
  pose proof (H 0%nat 1%nat ltac:(cbn; lia)) as [P1 P2]. cbn [nth] in P1, P2.
  assert (0 <= Rsum (map (fun z => (fst z - fst x) * (snd z - snd x)) l)).
  { assert (G : forall z, In z l -> fst x <= fst z /\ snd x <= snd z).
    { intros z Hz. destruct (In_nth _ _ (0, 0) Hz) as [k [Hk <-]]. specialize (H 0%nat (S (S k)) ltac:(cbn; lia)). cbn [nth] in H. lra. }
    clear - G. induction l as [|z l IH]; cbn [map]; [rewrite rnil; lra|]. rewrite rcons. specialize (IH (fun w Hw => G w (or_intror Hw))). destruct (G z (or_introl eq_refl)). nra. }
  nra.
Qed.
Lemma zero_gradient : forall G H, (forall s, 0 <= 2 * s * G + s * s * H) -> 0 <= H -> G = 0.
Proof.
  intros G H Hs HH. specialize (Hs (- G / (H + 1))). replace (2 * (- G / (H + 1)) * G + - G / (H + 1) * (- G / (H + 1)) * H) with (- (G * G) * (H + 2) / ((H + 1) * (H + 1))) in Hs by (field; lra).
  destruct (Req_dec G 0) as [|N]; [assumption|]. exfalso. assert (0 < G * G) by nra. assert (0 < (G * G) * (H + 2) / ((H + 1) * (H + 1))) by (apply Rdiv_lt_0_compat; nra).
  replace (- (G * G) * (H + 2) / ((H + 1) * (H + 1))) with (- ((G * G) * (H + 2) / ((H + 1) * (H + 1)))) in Hs by (field; lra). lra.
Qed.
Lemma sum_sq : forall {A} (f : A -> R) l, 0 <= Rsum (map (fun p => f p * f p) l).
Proof. intros A f. induction l as [|x l IH]; cbn [map]; [rewrite rnil; lra|]. rewrite rcons. nra. Qed.
(** the normal equations give the slope *)
Lemma slope : forall ls t d, is_lstsq ls -> length t = length d ->
  fst (ls t d) * cov (map (fun p => (fst p, fst p)) (combine t d)) = cov (combine t d).
Proof.
  intros ls t d Hls Hl. set (a := fst (ls t d)). set (b := snd (ls t d)). set (l := combine t d).
  set (r := fun p : R * R => a * fst p + b - snd p).
  assert (X : forall s u, Rsum (map (fun p => ((a + s) * fst p + (b + u) - snd p) * ((a + s) * fst p + (b + u) - snd p)) l) =
    Rsum (map (fun p => (a * fst p + b - snd p) * (a * fst p + b - snd p)) l) + 2 * s * Rsum (map (fun p => r p * fst p) l) + 2 * u * Rsum (map r l) +
    s * s * Rsum (map (fun p => fst p * fst p) l) + 2 * s * u * Rsum (map fst l) + u * u * Rsum (map (fun _ => 1 * 1) l)).
  { intros s u. unfold r. clear. induction l as [|x l IH]; cbn [map]; [rewrite !rnil; ring|]. rewrite !rcons, IH. ring. }
  assert (G1 : Rsum (map (fun p => r p * fst p) l) = 0).
  { apply (zero_gradient _ (Rsum (map (fun p => fst p * fst p) l))); [|apply sum_sq]. intros s. destruct (Hls t d Hl (a + s) (b + 0)) as [H _]. fold a b in H. unfold residual in H. fold l in H.
    rewrite X in H. lra. }
  assert (G2 : Rsum (map r l) = 0).
  { apply (zero_gradient _ (Rsum (map (fun _ => 1 * 1) l))); [|apply (sum_sq (fun _ : R * R => 1))]. intros s. destruct (Hls t d Hl (a + 0) (b + s)) as [H _]. fold a b in H. unfold residual in H. fold l in H.
    rewrite X in H. lra. }
  assert (E1 : Rsum (map (fun p => r p * fst p) l) = a * Rsum (map (fun p => fst p * fst p) l) + b * Rsum (map fst l) - Rsum (map (fun p => fst p * snd p) l)).
  { unfold r. clear. induction l as [|x l IH]; cbn [map]; [rewrite !rnil; ring|]. rewrite !rcons, IH. ring. }
  assert (E2 : Rsum (map r l) = a * Rsum (map fst l) + b * INR (length l) - Rsum (map snd l)).
  { unfold r. clear. induction l as [|x l IH]; cbn [map length]; [rewrite !rnil; cbn; ring|]. rewrite !rcons, IH, S_INR. ring. }
  unfold cov. rewrite map_length, !map_map. cbn [fst snd].
  set (N := INR (length l)) in *. set (T := Rsum (map fst l)) in *. set (D := Rsum (map snd l)) in *.
  set (TT := Rsum (map (fun p => fst p * fst p) l)) in *. set (TD := Rsum (map (fun p => fst p * snd p) l)) in *.
  assert (D = a * T + b * N) by lra. assert (TD = a * TT + b * T) by lra. subst D TD. rewrite H, H0. ring.
Qed.
Lemma cov_lin : forall u v l, cov (map (fun p => (fst p, u * snd p + v * fst p)) l) = u * cov l + v * cov (map (fun p => (fst p, fst p)) l).
Proof.
  intros u v l. unfold cov. rewrite !map_length, !map_map. cbn [fst snd].
  assert (E1 : Rsum (map (fun p : R * R => fst p * (u * snd p + v * fst p)) l) = u * Rsum (map (fun p => fst p * snd p) l) + v * Rsum (map (fun p => fst p * fst p) l)).
  { induction l as [|x l IH]; cbn [map]; [rewrite !rnil; ring|]. rewrite !rcons, IH. ring. }
  assert (E2 : Rsum (map (fun p : R * R => u * snd p + v * fst p) l) = u * Rsum (map snd l) + v * Rsum (map fst l)).
  { clear E1. induction l as [|x l IH]; cbn [map]; [rewrite !rnil; ring|]. rewrite !rcons, IH. ring. }
  rewrite E1, E2. change (map (fun x : R * R => fst x) l) with (map fst l). ring.
Qed.
(** the data of the fit *)
Definition times (n : nat) (fs : R) : list R := map (fun i => INR i / fs) (seq 0 n).
Definition from0 (ds : list R) : list R := map (fun d => d - nth 0 ds 0) ds.
Lemma fit_exp_log : forall ls cf ds fs, ds <> [] -> fit_exp ls cf ds fs (-60) false =
  let p := ls (times (length ds) fs) (from0 ds) in if Req_EM_T (fst p) 0 then Infinite else Est (-60 / fst p).
Proof. intros ls cf [|d ds] fs H; [congruence|]. unfold fit_exp, times, from0. rewrite map_length. reflexivity. Qed.
Lemma times_length : forall n fs, length (times n fs) = n. Proof. intros. unfold times. now rewrite map_length, seq_length. Qed.
Lemma from0_length : forall ds, length (from0 ds) = length ds. Proof. intros. unfold from0. now rewrite map_length. Qed.
Lemma pts_nth : forall ds fs k, (k < length ds)%nat -> nth k (combine (times (length ds) fs) (from0 ds)) (0, 0) = (INR k / fs, nth k ds 0 - nth 0 ds 0).
Proof.
  intros ds fs k Hk. rewrite combine_nth by (now rewrite times_length, from0_length). f_equal.
  - unfold times. now rewrite (nth_map_seq (fun i => INR i / fs)) by exact Hk.
  - unfold from0. rewrite (nth_indep _ 0 (0 - nth 0 ds 0)) by (now rewrite map_length). now rewrite (map_nth (fun d => d - nth 0 ds 0)).
Qed.
Lemma pts_length : forall ds fs, length (combine (times (length ds) fs) (from0 ds)) = length ds.
Proof. intros. rewrite combine_length, times_length, from0_length. lia. Qed.
Lemma steps : forall (f : nat -> R) n, (forall i, (S i < n)%nat -> f i <= f (S i)) -> forall i j, (i <= j < n)%nat -> f i <= f j.
Proof. intros f n H i j [Hij Hj]. induction Hij as [|j Hij IH]; [lra|]. specialize (IH ltac:(lia)). specialize (H j Hj). lra. Qed.
Lemma nth_mapp : forall (g : R * R -> R * R) l i, (i < length l)%nat -> nth i (map g l) (0, 0) = g (nth i l (0, 0)).
Proof. intros g l i H. rewrite (nth_indep _ (0, 0) (g (0, 0))) by (now rewrite map_length). now rewrite map_nth. Qed.
Lemma var_pos : forall ds fs, 0 < fs -> (2 <= length ds)%nat -> 0 < cov (map (fun p => (fst p, fst p)) (combine (times (length ds) fs) (from0 ds))).
Proof.
  intros ds fs Hf Hn. apply cov_pos; [now rewrite map_length, pts_length|]. rewrite map_length, pts_length. intros i j Hij.
  rewrite !nth_mapp by (rewrite pts_length; lia). rewrite !pts_nth by lia. cbn [fst snd].
  assert (INR i < INR j) by (apply lt_INR; lia). assert (INR i / fs < INR j / fs) by (unfold Rdiv; apply Rmult_lt_compat_r; [now apply Rinv_0_lt_compat|assumption]). lra.
Qed.
(** the slope lies between the smallest and the largest drop from sample to sample *)
Lemma fit_bounds : forall ls ds fs lo hi, is_lstsq ls -> 0 < fs -> (2 <= length ds)%nat ->
  (forall i, (S i < length ds)%nat -> lo <= nth i ds 0 - nth (S i) ds 0 <= hi) ->
  lo * fs <= - fst (ls (times (length ds) fs) (from0 ds)) <= hi * fs.
Proof.
  intros ls ds fs lo hi Hls Hf Hn H. pose proof (slope ls (times (length ds) fs) (from0 ds) Hls ltac:(now rewrite times_length, from0_length)) as S.
  pose proof (var_pos ds fs Hf Hn) as V. set (p := fst (ls _ _)) in *. set (l := combine (times (length ds) fs) (from0 ds)) in *. set (v := cov (map (fun q => (fst q, fst q)) l)) in *.
  assert (L : length l = length ds) by apply pts_length.
  assert (T : forall i, (i < length ds)%nat -> nth i l (0, 0) = (INR i / fs, nth i ds 0 - nth 0 ds 0)) by (intros; now apply pts_nth).
  assert (G : forall u w, (forall i, (Datatypes.S i < length ds)%nat -> u * nth i ds 0 + w * INR i / fs <= u * nth (Datatypes.S i) ds 0 + w * INR (Datatypes.S i) / fs) -> 0 <= u * cov l + w * v).
  { intros u w Hm. unfold v. rewrite <- cov_lin. apply cov_nonneg. rewrite map_length, L. intros i j Hij.
    rewrite !nth_mapp by lia. rewrite !T by lia. cbn [fst snd]. split.
    - unfold Rdiv. apply Rmult_le_compat_r; [left; now apply Rinv_0_lt_compat|apply le_INR; lia].
    - pose proof (steps (fun i => u * nth i ds 0 + w * INR i / fs) (length ds) Hm i j Hij) as Q. cbn beta in Q. unfold Rdiv in *. lra. }
  assert (D : forall w i, w * INR (Datatypes.S i) / fs = w * INR i / fs + w / fs) by (intros; rewrite S_INR; field; lra).
  split.
  - assert (0 <= -1 * cov l + - (lo * fs) * v).
    { apply G. intros i Hi. rewrite D. specialize (H i Hi). replace (- (lo * fs) / fs) with (- lo) by (field; lra). lra. }
    rewrite <- S in H0. apply Rnot_lt_le. intros N. nra.
  - assert (0 <= 1 * cov l + (hi * fs) * v).
    { apply G. intros i Hi. rewrite D. specialize (H i Hi). replace (hi * fs / fs) with hi by (field; lra). lra. }
    rewrite <- S in H0. apply Rnot_lt_le. intros N. nra.
Qed.
Lemma fit_one : forall ls t, is_lstsq ls -> fst (ls [t] [0]) = 0.
Proof.
  intros ls t Hls. destruct (Hls [t] [0] eq_refl 0 0) as [H1 H2]. unfold residual in *. cbn [combine map fst snd] in *. rewrite !rcons, !rnil in *.
  set (a := fst (ls [t] [0])) in *. set (b := snd (ls [t] [0])) in *.
  assert (0 <= (a * t + b - 0) * (a * t + b - 0)) by apply (Rle_0_sqr (a * t + b - 0)). specialize (H2 ltac:(lra)). nra.
Qed.

(** ** The whole measurement *)
Definition rest (ls : list R -> list R -> R * R) cf (db : list R) (fs decay : R) (lin : bool) : outcome :=
  let m := - list_min db in
  let dd := if Rltb (m - 5) decay then m else decay in
  match first_below db (-5) with
  | None => Est 0
  | Some i => fit_exp ls cf (skipn i (firstn (match first_below db (nth i db 0 - dd) with Some j => j | None => length db end) db)) fs (-60) lin
  end.
Definition eff (h : list R) (th : R) (i : nat) : R :=
  if Rltb th 1 then Rmax (energy_after h i - energy_after h 0 * (1 - th)) 0 else energy_after h i.
Definition lv (h : list R) (th : R) (i : nat) : R := 10 * log10 (eff h th i) - 10 * log10 (eff h th 0).
Definition th_ok (h : list R) (th : R) : Prop := 1 <= th \/ 0 < th /\ h <> [].

Lemma threshold_some : forall h th, th_ok h th -> exists en, threshold (schroeder h) th = Some en /\ length en = length h /\ forall i, nth i en 0 = eff h th i.
Proof.
  intros h th Hok. unfold threshold, eff. destruct (Rltb th 1) eqn:E.
  - apply Rltb_true in E. destruct Hok as [Hok|[H1 H2]]; [lra|]. rewrite (proj2 (Rltb_true 0 th)) by exact H1.
    destruct h as [|x h]; [congruence|]. rewrite schroeder_cons. eexists. split; [reflexivity|]. rewrite <- schroeder_cons.
    split; [now rewrite map_length, schroeder_length|]. intros i.
    assert (Z : 0 = (fun e => Rmax (e - energy_after (x :: h) 0 * (1 - th)) 0) 0). { cbn beta. pose proof (energy_nonneg (x :: h) 0). symmetry. apply Rmax_right. nra. }
    rewrite Z at 1. rewrite (map_nth (fun e => Rmax (e - energy_after (x :: h) 0 * (1 - th)) 0)). now rewrite schroeder_nth.
  - eexists. split; [reflexivity|]. split; [apply schroeder_length|]. apply schroeder_nth.
Qed.
Lemma threshold_none : forall h th, ~ th_ok h th -> threshold (schroeder h) th = None.
Proof.
  intros h th H. unfold threshold, th_ok in *. destruct (Rltb th 1) eqn:E; [|apply Rltb_false in E; tauto]. destruct (Rltb 0 th) eqn:E0; [|reflexivity]. apply Rltb_true in E0.
  destruct h as [|x h]; [reflexivity|]. exfalso. apply H. right. split; [exact E0|discriminate].
Qed.
Lemma eff_nonneg : forall h th i, 0 <= eff h th i.
Proof. intros h th i. unfold eff. destruct (Rltb th 1); [apply Rmax_r|apply energy_nonneg]. Qed.
Lemma eff_desc : forall h th i j, (i <= j)%nat -> eff h th j <= eff h th i.
Proof. intros h th i j H. unfold eff. pose proof (energy_desc h i j H). destruct (Rltb th 1); [|assumption]. apply Rle_max_compat_r. lra. Qed.
Lemma eff_out : forall h th i, (length h <= i)%nat -> 0 < th -> eff h th i = 0.
Proof.
  intros h th i H Ht. unfold eff. rewrite energy_out by exact H. destruct (Rltb th 1) eqn:E; [|reflexivity]. apply Rltb_true in E. apply Rmax_right. pose proof (energy_nonneg h 0). nra.
Qed.
(** the result, from the last sample k with energy *)
Lemma measure_char : forall ls cf h fs decay th lin k, th_ok h th -> 0 < eff h th k -> (forall j, (k < j)%nat -> eff h th j = 0) ->
  measure_rt60 ls cf h fs decay th lin = if Nat.eqb k 0 then Raises else rest ls cf (map (lv h th) (seq 0 k)) fs decay lin.
Proof.
  intros ls cf h fs decay th lin k Hok Hk Hj. unfold measure_rt60. destruct (threshold_some h th Hok) as [en (E & L & N)]. rewrite E.
  assert (Ht : 0 < th) by (destruct Hok as [|[? _]]; lra).
  assert (Hl : (k < length h)%nat). { destruct (Nat.lt_ge_cases k (length h)) as [|G]; [assumption|]. rewrite (eff_out h th k G Ht) in Hk. lra. }
  rewrite (last_positive_unique en k); [|lia|now rewrite N|intros j Hjj; rewrite N, Hj by lia; lra].
  destruct k as [|k]; [reflexivity|]. cbn [Nat.eqb].
  assert (F : firstn (S k) en = map (eff h th) (seq 0 (S k))).
  { apply (nth_ext _ _ 0 0); [rewrite firstn_length, map_length, seq_length; lia|]. intros n Hn. rewrite firstn_length in Hn.
    rewrite nth_firstn by lia. rewrite N. now rewrite (nth_map_seq (eff h th)) by lia. }
  rewrite F. cbn [seq map]. assert (P : 0 < eff h th 0) by (pose proof (eff_desc h th 0 (S k) ltac:(lia)); lra).
  rewrite (proj2 (Rltb_true _ _)) by exact P. change (eff h th 0 :: map (eff h th) (seq 1 k)) with (map (eff h th) (seq 0 (S k))).
  rewrite map_map. reflexivity.
Qed.
Lemma measure_zero : forall ls cf h fs decay th lin, th_ok h th -> h <> [] -> eff h th 0 = 0 -> measure_rt60 ls cf h fs decay th lin = Est 0.
Proof.
  intros ls cf h fs decay th lin Hok Hh H0. unfold measure_rt60. destruct (threshold_some h th Hok) as [en (E & L & N)]. rewrite E.
  rewrite last_positive_none; [|intros i _; rewrite N; pose proof (eff_desc h th 0 i ltac:(lia)); lra]. rewrite firstn_all.
  destruct en as [|e en]; [destruct h; [congruence|discriminate]|]. pose proof (N 0%nat) as N0. cbn [nth] in N0. rewrite N0, H0, (proj2 (Rltb_false _ _)) by lra. reflexivity.
Qed.
Lemma last_exists : forall h th, 0 < th -> 0 < eff h th 0 -> exists k, 0 < eff h th k /\ forall j, (k < j)%nat -> eff h th j = 0.
Proof.
  intros h th Ht H0. assert (G : forall n, (forall j, (n <= j)%nat -> eff h th j = 0) -> exists k, 0 < eff h th k /\ forall j, (k < j)%nat -> eff h th j = 0).
  { induction n as [|n IH]; intros Hn; [specialize (Hn 0%nat ltac:(lia)); lra|].
    destruct (Rlt_dec 0 (eff h th n)) as [P|P]; [exists n; split; [exact P|]; intros j Hj; apply Hn; lia|].
    apply IH. intros j Hj. destruct (Nat.eq_dec j n) as [->|]; [pose proof (eff_nonneg h th n); lra|apply Hn; lia]. }
  apply (G (length h)). intros j Hj. now apply eff_out.
Qed.
Lemma measure_raises : forall ls cf h fs decay th lin, ~ th_ok h th \/ h = [] -> measure_rt60 ls cf h fs decay th lin = Raises.
Proof.
  intros ls cf h fs decay th lin [Hok| ->]; [unfold measure_rt60; now rewrite threshold_none|]. unfold measure_rt60, threshold. cbn [schroeder map rev cumsum]. destruct (Rltb th 1); [destruct (Rltb 0 th)|]; reflexivity.
Qed.
Lemma split : forall h th, (~ th_ok h th \/ h = []) \/ (th_ok h th /\ h <> [] /\ eff h th 0 = 0) \/
  (th_ok h th /\ h <> [] /\ 0 < eff h th 0 /\ exists k, 0 < eff h th k /\ (forall j, (k < j)%nat -> eff h th j = 0)).
Proof.
  intros h th. destruct h as [|x h]; [tauto|].
  assert (D : th_ok (x :: h) th \/ ~ th_ok (x :: h) th). { unfold th_ok. destruct (Rle_dec 1 th); [tauto|]. destruct (Rlt_dec 0 th); [left; right; split; [assumption|discriminate]|tauto]. }
  destruct D as [Hok|Hok]; [|tauto]. right. assert (Hn : x :: h <> []) by discriminate.
  destruct (Rlt_dec 0 (eff (x :: h) th 0)) as [P|P].
  - assert (Ht : 0 < th) by (destruct Hok as [|[? _]]; lra). pose proof (last_exists _ _ Ht P). tauto.
  - left. pose proof (eff_nonneg (x :: h) th 0). split; [exact Hok|]. split; [exact Hn|]. lra.
Qed.
