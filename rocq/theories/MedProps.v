(** C125: the median and its confidence interval. *)
From Coq Require Import List ZArith Lia Reals Lra Bool Sorting.Permutation Sorting.Sorted R_Ifp.
From Verif Require WienerProofs.
From Verif Require Import Base BaseProofs Vec Sum MedModel MedProofs.
Import ListNotations.
Local Open Scope R_scope.

(** Sum of absolute deviations. *)
Definition deviation (c : R) (x : list R) : R := Rsum (map (fun v => Rabs (v - c)) x).
(** A median of a population: at most half of it on each side. *)
Definition is_median (c : R) (pop : list R) : Prop := (2 * above c pop <= length pop /\ 2 * below c pop <= length pop)%nat.
(** All samples of [n] values drawn from a population, with replacement. *)
Fixpoint draws (pop : list R) (n : nat) : list (list R) := match n with O => [[]] | S n' => flat_map (fun a => map (cons a) (draws pop n')) pop end.
(** The interval [m + a, m + b] contains [c]. *)
Definition covers (c : R) (r : option (R * (R * R))) : bool :=
  match r with Some (m, (a, b)) => if Rle_dec (m + a) c then if Rle_dec c (m + b) then true else false else false | None => false end.

Theorem C125_halves : forall x m, median x = Some m -> is_median m x /\ (Nat.odd (length x) = true -> In m x).
Proof.
  intros x m H. split; [now apply median_halves|]. intros O. pose proof (median_between x m H) as B. destruct (median_inv x m H) as [H0 _]. pose proof (halves _ H0) as D. cbv zeta in B. rewrite O in *. rewrite B. apply (Permutation_in _ (sort_perm x)). apply nth_In. rewrite sort_length. lia.
Qed.
Print Assumptions C125_halves.
Lemma deviation_ge : forall x m c, m <= c -> deviation c x >= deviation m x + (c - m) * (INR (length x) - 2 * INR (above m x)).
Proof.
  induction x as [|v x IH]; intros m c H; unfold deviation, above in *; cbn [map filter length]; [cbn; lra|]. change (Rsum (?a :: ?l)) with (a + Rsum l). specialize (IH m c H). destruct (Rlt_dec m v); cbn [length]; rewrite !S_INR; set (u := INR (length x)) in *; set (w := INR (length (filter _ x))) in *; set (A := Rsum _) in *; set (B := Rsum (map (fun v => Rabs (v - m)) x)) in *; unfold Rabs; destruct (Rcase_abs (v - c)), (Rcase_abs (v - m)); nra.
Qed.
Lemma deviation_ge' : forall x m c, c <= m -> deviation c x >= deviation m x + (m - c) * (INR (length x) - 2 * INR (below m x)).
Proof.
  induction x as [|v x IH]; intros m c H; unfold deviation, below in *; cbn [map filter length]; [cbn; lra|]. change (Rsum (?a :: ?l)) with (a + Rsum l). specialize (IH m c H). destruct (Rlt_dec v m); cbn [length]; rewrite !S_INR; set (u := INR (length x)) in *; set (w := INR (length (filter _ x))) in *; set (A := Rsum _) in *; set (B := Rsum (map (fun v => Rabs (v - m)) x)) in *; unfold Rabs; destruct (Rcase_abs (v - c)), (Rcase_abs (v - m)); nra.
Qed.
(** No other value has smaller absolute deviations from the data. *)
Theorem C125_deviation : forall x m c, median x = Some m -> deviation m x <= deviation c x.
Proof.
  intros x m c H. destruct (median_halves x m H) as [A B]. apply le_INR in A, B. rewrite mult_INR in A, B. change (INR 2) with (1 + 1) in A, B. destruct (Rle_dec m c).
  - pose proof (deviation_ge x m c ltac:(auto)). assert (0 <= (c - m) * (INR (length x) - 2 * INR (above m x))) by (apply Rmult_le_pos; lra). lra.
  - pose proof (deviation_ge' x m c ltac:(lra)). assert (0 <= (m - c) * (INR (length x) - 2 * INR (below m x))) by (apply Rmult_le_pos; lra). lra.
Qed.
Print Assumptions C125_deviation.
(** The order of the data does not matter. *)
Theorem C125_order : forall quantile alpha x y, Permutation x y -> median x = median y /\ median_ci quantile alpha x = median_ci quantile alpha y.
Proof.
  intros quantile alpha x y P. pose proof (sort_same x y P) as E. pose proof (Permutation_length P) as L. assert (M : median x = median y) by (unfold median; now rewrite E, L). split; [exact M|]. unfold median_ci. now rewrite M, E, L.
Qed.
Print Assumptions C125_order.

Lemma nth_sorted : forall l, (forall i j, (i <= j < length l)%nat -> nth i l 0 <= nth j l 0) -> StronglySorted Rle l.
Proof.
  induction l as [|a l IH]; intros H; constructor.
  - apply IH. intros i j Hij. apply (H (S i) (S j)). cbn. lia.
  - apply Forall_forall. intros b Hb. destruct (In_nth _ _ 0 Hb) as (i & Hi & <-). apply (H 0%nat (S i)). cbn. lia.
Qed.
Lemma sort_map_up : forall a b x, 0 <= a -> sort (map (fun v => a * v + b) x) = map (fun v => a * v + b) (sort x).
Proof.
  intros a b x Ha. apply sort_of; [|apply Permutation_map, sort_perm]. apply nth_sorted. intros i j Hij. rewrite map_length in Hij. rewrite !(nth_indep _ 0 (a * 0 + b)) by (rewrite map_length; lia). rewrite !(map_nth (fun v => a * v + b)). pose proof (sorted_le (sort x) i j (sort_sorted x) Hij). apply Rplus_le_compat_r, Rmult_le_compat_l; auto.
Qed.
Lemma sort_map_down : forall a b x, a <= 0 -> sort (map (fun v => a * v + b) x) = rev (map (fun v => a * v + b) (sort x)).
Proof.
  intros a b x Ha. apply sort_of. 2:{ rewrite <- Permutation_rev. apply Permutation_map, sort_perm. } apply nth_sorted. intros i j Hij. rewrite rev_length, map_length in Hij. rewrite !rev_nth by (rewrite map_length; lia). rewrite map_length. rewrite !(nth_indep _ 0 (a * 0 + b)) by (rewrite map_length; lia). rewrite !(map_nth (fun v => a * v + b)).
  pose proof (sorted_le (sort x) (length (sort x) - S j) (length (sort x) - S i) (sort_sorted x) ltac:(lia)). apply Rplus_le_compat_r. nra.
Qed.
Lemma median_up : forall a b x m, 0 <= a -> median x = Some m -> median (map (fun v => a * v + b) x) = Some (a * m + b).
Proof.
  intros a b x m Ha H. destruct (median_inv x m H) as [H0 E]. pose proof (halves _ H0) as D. unfold median. rewrite sort_map_up by auto. rewrite map_length. destruct (Nat.eqb_spec (length x) 0); [lia|]. f_equal. subst m. destruct (Nat.odd (length x)); rewrite !(nth_indep (map _ _) 0 (a * 0 + b)) by (rewrite map_length, sort_length; lia); rewrite !(map_nth (fun v => a * v + b)); lra.
Qed.
(** Change of units, also with a negative factor. *)
Theorem C125_affine : forall a b x m, median x = Some m -> median (map (fun v => a * v + b) x) = Some (a * m + b).
Proof.
  intros a b x m H. destruct (Rle_dec 0 a) as [Ha|Ha]; [now apply median_up|]. destruct (median_inv x m H) as [H0 E]. pose proof (halves _ H0) as D. unfold median. rewrite sort_map_down by lra. rewrite map_length. destruct (Nat.eqb_spec (length x) 0); [lia|]. f_equal. subst m.
  destruct (Nat.odd (length x)); rewrite !rev_nth by (rewrite map_length, sort_length; lia); rewrite map_length, sort_length; rewrite !(nth_indep (map _ _) 0 (a * 0 + b)) by (rewrite map_length, sort_length; lia); rewrite !(map_nth (fun v => a * v + b)).
  - replace (length x - S (length x / 2))%nat with (length x / 2)%nat by lia. reflexivity.
  - replace (length x - S (length x / 2 - 1))%nat with (length x / 2)%nat by lia. replace (length x - S (length x / 2))%nat with (length x / 2 - 1)%nat by lia. lra.
Qed.
Print Assumptions C125_affine.
Lemma pyget_map : forall a b s i, pyget (map (fun v => a * v + b) s) i = option_map (fun v => a * v + b) (pyget s i).
Proof.
  intros a b s i. unfold pyget. rewrite map_length. destruct (Z.leb_spec 0 i), (Z.ltb_spec i (Z.of_nat (length s))), (Z.leb_spec (- Z.of_nat (length s)) i), (Z.ltb_spec i 0); cbn [andb option_map]; auto; f_equal; rewrite (nth_indep _ 0 (a * 0 + b)) by (rewrite map_length; lia); apply (map_nth (fun v => a * v + b)).
Qed.
Lemma interval_map : forall a b s m j k, interval (map (fun v => a * v + b) s) (a * m + b) j k = option_map (fun p => (a * fst p, a * snd p)) (interval s m j k).
Proof. intros. unfold interval. rewrite !pyget_map. destruct (pyget s j); cbn [bind option_map]; auto. destruct (pyget s k); cbn [bind option_map]; auto. cbn [fst snd]. f_equal. f_equal; ring. Qed.
(** With a factor that is not negative the interval changes along. *)
Theorem C125_affine_interval : forall quantile alpha a b x, 0 <= a ->
  median_ci quantile alpha (map (fun v => a * v + b) x) = option_map (fun r => (a * fst r + b, (a * fst (snd r), a * snd (snd r)))) (median_ci quantile alpha x).
Proof.
  intros quantile alpha a b x Ha. unfold median_ci. destruct (median x) as [m|] eqn:E.
  - rewrite (median_up a b x m Ha E). cbn [bind]. destruct (Req_EM_T alpha 0); auto. destruct (Req_EM_T alpha 2); auto. rewrite map_length, sort_map_up by auto. destruct (Rlt_dec (INR (length x)) (clt_bound alpha)).
    + unfold small_ci. rewrite map_length. destruct (ppf _ (alpha / 2)); cbn [bind]; auto. destruct (ppf _ (1 - alpha / 2)); cbn [bind]; auto. destruct (Rlt_dec (bcdf _ (if Rlt_dec _ _ then _ else _) - _) _); auto. destruct (Z.ltb _ _); auto. rewrite interval_map. destruct (interval _ _ _ _) as [[u v]|]; reflexivity.
    + unfold large_ci. rewrite map_length. destruct (Rlt_dec alpha 0); auto. destruct (Rlt_dec 2 alpha); auto. rewrite interval_map. destruct (interval _ _ _ _) as [[u v]|]; reflexivity.
  - assert (x = []) by (unfold median in E; destruct x; [auto|discriminate]). subst. reflexivity.
Qed.
Print Assumptions C125_affine_interval.

(** What small sets use. *)
Lemma binomial_absorb : forall n k, (k <= n)%nat -> (S k * binomial n (S k) = (n - k) * binomial n k)%nat.
Proof.
  induction n as [|n IH]; intros k H; [assert (k = 0%nat) by lia; subst; reflexivity|]. destruct (Nat.eq_dec k (S n)) as [->|Hk]; [rewrite binomial_gt by lia; lia|].
  cbn [binomial]. destruct k as [|k].
  - rewrite !binomial_0. pose proof (IH 0%nat ltac:(lia)) as A. rewrite binomial_0 in A. lia.
  - cbn [binomial]. pose proof (IH (S k) ltac:(lia)) as A. pose proof (IH k ltac:(lia)) as B.
    set (u := binomial n k) in *. set (v := binomial n (S k)) in *. set (w := binomial n (S (S k))) in *. replace (S n - S k)%nat with (n - k)%nat by lia. replace (n - k)%nat with (S (n - S k)) in * by lia. set (r := (n - S k)%nat) in *. nia.
Qed.
Lemma binomial_pos : forall n k, (k <= n)%nat -> (0 < binomial n k)%nat.
Proof. induction n as [|n IH]; intros [|k] H; try lia; try (rewrite binomial_0; lia). cbn [binomial]. pose proof (IH k ltac:(lia)). lia. Qed.
Lemma low_strict : forall n i j, (i < j)%nat -> (i <= n)%nat -> low n i < low n j.
Proof.
  intros n i j H Hn. apply Rlt_le_trans with (low n (S i)); [|apply low_mono; lia]. rewrite low_S. assert (0 < INR (binomial n i) / 2 ^ n); [|lra]. apply Rmult_lt_0_compat; [apply lt_0_INR, binomial_pos, Hn|apply Rinv_0_lt_compat, pow2].
Qed.
Lemma low_1 : forall n, low n 1 = / 2 ^ n.
Proof. intros. rewrite low_S, low_0, binomial_0. cbn [INR]. unfold Rdiv. ring. Qed.
Section Small.
Variables (n : nat) (alpha : R).
Hypothesis Ha : 0 < alpha < 1.
Hypothesis Hn : (0 < n)%nat.
Definition ixs : option (nat * nat) :=
  match ppf n (alpha / 2), ppf n (1 - alpha / 2) with
  | Some lo, Some hi => let j := Z.to_nat (lo - 1) in let k := Z.to_nat (hi - 1) in
      if Z.ltb (lo - 1) 0 then None else Some (j, if Rlt_dec (low n (S k) - low n (S j)) (1 - alpha) then S k else k)
  | _, _ => None end.
Lemma small_ixs : forall s m, length s = n -> small_ci alpha s m = match ixs with Some (j, k) => interval s m (Z.of_nat j) (Z.of_nat k) | None => None end.
Proof.
  intros s m L. unfold small_ci, ixs. rewrite L. destruct (ppf_spec n (alpha / 2) ltac:(lra)) as (a & Ea & A1 & A2 & A3). destruct (ppf_spec n (1 - alpha / 2) ltac:(lra)) as (b & Eb & B1 & B2 & B3). rewrite Ea, Eb. cbn [bind].
  assert (Hab : (a <= b)%nat). { destruct (le_lt_dec a b); auto. pose proof (A3 (S b) ltac:(lia)). lra. }
  destruct (Z.ltb_spec (Z.of_nat a - 1) 0).
  - destruct (Rlt_dec _ _); reflexivity.
  - assert (E1 : bcdf n (Z.of_nat a - 1) = low n (S (Z.to_nat (Z.of_nat a - 1)))) by (rewrite bcdf_low; f_equal; lia). assert (E2 : bcdf n (Z.of_nat b - 1) = low n (S (Z.to_nat (Z.of_nat b - 1)))) by (rewrite bcdf_low; f_equal; lia). rewrite E1, E2.
    assert (E3 : bcdf n (Z.of_nat b - 1 + 1) = low n (S b)) by (rewrite bcdf_low; f_equal; lia). set (j := Z.to_nat (Z.of_nat a - 1)) in *. assert (Ej : S j = a) by lia. pose proof (A3 (S j) ltac:(lia)) as A4.
    destruct (Rlt_dec (low n (S (Z.to_nat (Z.of_nat b - 1))) - low n (S j)) (1 - alpha)) as [Hlt|Hge].
    + rewrite E3. destruct (Rlt_dec (low n (S b) - low n (S j)) (1 - alpha)); [lra|]. f_equal; lia.
    + rewrite E2. destruct (Rlt_dec _ _); [contradiction|]. f_equal; lia.
Qed.
Lemma ixs_none : ixs = None <-> alpha / 2 <= / 2 ^ n.
Proof.
  unfold ixs. destruct (ppf_spec n (alpha / 2) ltac:(lra)) as (a & Ea & A1 & A2 & A3). destruct (ppf_spec n (1 - alpha / 2) ltac:(lra)) as (b & Eb & B1 & B2 & B3). rewrite Ea, Eb. rewrite <- low_1. destruct (Z.ltb_spec (Z.of_nat a - 1) 0).
  - assert (a = 0%nat) by lia. subst a. split; auto.
  - split; [discriminate|]. intros Hc. pose proof (A3 1%nat ltac:(lia)). lra.
Qed.
Lemma ixs_some : forall j k, ixs = Some (j, k) -> (j < k < n)%nat /\ 1 - alpha <= low n (S k) - low n (S j) /\
  (if Nat.odd n then (j <= n / 2 <= k)%nat else (j <= n / 2 - 1 /\ n / 2 <= k)%nat).
Proof.
  intros j k. unfold ixs. destruct (ppf_spec n (alpha / 2) ltac:(lra)) as (a & Ea & A1 & A2 & A3). destruct (ppf_spec n (1 - alpha / 2) ltac:(lra)) as (b & Eb & B1 & B2 & B3). rewrite Ea, Eb. destruct (Z.ltb_spec (Z.of_nat a - 1) 0) as [|Hz]; [discriminate|].
  assert (Hab : (a <= b)%nat). { destruct (le_lt_dec a b); auto. pose proof (A3 (S b) ltac:(lia)). lra. }
  replace (S (Z.to_nat (Z.of_nat b - 1))) with b by lia. replace (S (Z.to_nat (Z.of_nat a - 1))) with a by lia. intros E. apply WienerProofs.some_inj in E. apply pair_equal_spec in E. destruct E as [Ej Ek]. assert (a = S j) by lia. subst a. clear Ej Hz.
  pose proof (A3 (S j) ltac:(lia)) as Aj. pose proof (A3 1%nat ltac:(lia)) as Am. assert (Hbn : (b < n)%nat). { destruct (le_lt_dec n b) as [Hb|]; auto. pose proof (B3 n ltac:(lia)) as Q. pose proof (low_sym n 0 ltac:(lia)) as Y. rewrite Nat.sub_0_r in Y. lra. }
  assert (Cov : 1 - alpha <= low n (S k) - low n (S j)). { subst k. destruct (Rlt_dec _ _); [lra|]. replace (S (Z.to_nat (Z.of_nat b - 1))) with b by lia. lra. }
  assert (Hjk : (j < k)%nat). { destruct (le_lt_dec k j) as [Q|]; auto. pose proof (low_mono n (S k) (S j) ltac:(lia)). lra. }
  assert (Hkn : (k < n)%nat) by (subst k; destruct (Rlt_dec _ _); lia). split; [lia|]. split; [exact Cov|].
  pose proof (halves n Hn) as D. set (p := (n / 2)%nat) in *. assert (Kb : (b - 1 <= k)%nat) by (subst k; destruct (Rlt_dec _ _); lia). destruct (Nat.odd n).
  - pose proof (low_sym n p ltac:(lia)) as Y. replace (n - p)%nat with (S p) in Y by lia. split.
    + destruct (le_lt_dec j p); auto. pose proof (low_mono n (S p) (S j) ltac:(lia)). lra.
    + assert (S p <= b)%nat; [|lia]. destruct (le_lt_dec (S p) b); auto. pose proof (low_mono n (S b) (S p) ltac:(lia)). lra.
  - pose proof (low_sym n p ltac:(lia)) as Y. replace (n - p)%nat with p in Y by lia. pose proof (low_mono n p (S p) ltac:(lia)) as Ym. split.
    + destruct (le_lt_dec j (p - 1)); auto. pose proof (low_mono n (S p) (S j) ltac:(lia)). lra.
    + destruct (le_lt_dec p k) as [|Hk]; auto. exfalso. assert (p <= b)%nat. { destruct (le_lt_dec p b); auto. pose proof (low_mono n (S b) p ltac:(lia)). lra. }
      assert (Eb' : b = p) by lia. assert (Ek' : k = (p - 1)%nat) by lia. subst b. rewrite Ek' in Cov. replace (S (p - 1)) with p in Cov by lia.
      assert (Q : low n p <= alpha / 2) by lra. assert (P1 : (p <= S (S j))%nat). { destruct (le_lt_dec p (S (S j))); auto. pose proof (low_strict n (S (S j)) p ltac:(lia) ltac:(lia)). lra. }
      assert (S (S j) = p) by (destruct (Nat.eq_dec p (S j)) as [EE|]; [rewrite EE in Cov; lra|lia]).
      assert (Sp : low n p = low n (S j) + INR (binomial n (S j)) / 2 ^ n) by (rewrite <- low_S; f_equal; lia). pose proof (low_S n p) as Sp'.
      assert (Hb : INR (binomial n (S j)) < INR (binomial n p)). { apply lt_INR. pose proof (binomial_absorb n (S j) ltac:(lia)) as AB. rewrite H0 in AB. replace (n - S j)%nat with (S p) in AB by lia. pose proof (binomial_pos n (S j) ltac:(lia)). nia. }
      assert (INR (binomial n (S j)) / 2 ^ n < INR (binomial n p) / 2 ^ n) by (apply Rmult_lt_compat_r; [apply Rinv_0_lt_compat, pow2|exact Hb]). rewrite H0 in A2. lra.
Qed.
End Small.
Lemma pyget_nat : forall s i, (i < length s)%nat -> pyget s (Z.of_nat i) = Some (nth i s 0).
Proof. intros s i H. unfold pyget. destruct (Z.leb_spec 0 (Z.of_nat i)); [|lia]. destruct (Z.ltb_spec (Z.of_nat i) (Z.of_nat (length s))); [|lia]. cbn [andb]. now rewrite Nat2Z.id. Qed.
Lemma interval_nat : forall s m j k, (j < length s)%nat -> (k < length s)%nat -> interval s m (Z.of_nat j) (Z.of_nat k) = Some (nth j s 0 - m, nth k s 0 - m).
Proof. intros. unfold interval. now rewrite !pyget_nat by auto. Qed.
Lemma interval_contains : forall x m j k, median x = Some m -> (j < length x)%nat -> (k < length x)%nat ->
  (if Nat.odd (length x) then (j <= length x / 2 <= k)%nat else (j <= length x / 2 - 1 /\ length x / 2 <= k)%nat) -> nth j (sort x) 0 - m <= 0 <= nth k (sort x) 0 - m.
Proof.
  intros x m j k H Hj Hk D. pose proof (median_between x m H) as B. cbv zeta in B. destruct (median_inv x m H) as [H0 _]. pose proof (halves _ H0) as Hh. pose proof (sort_sorted x) as S. pose proof (sort_length x) as L. destruct (Nat.odd (length x)).
  - pose proof (sorted_le _ j (length x / 2) S ltac:(lia)). pose proof (sorted_le _ (length x / 2) k S ltac:(lia)). lra.
  - pose proof (sorted_le _ j (length x / 2 - 1) S ltac:(lia)). pose proof (sorted_le _ (length x / 2) k S ltac:(lia)). lra.
Qed.
Lemma median_some : forall x, (0 < length x)%nat -> exists m, median x = Some m.
Proof. intros x H. unfold median. destruct (Nat.eqb_spec (length x) 0); [lia|eauto]. Qed.
(** Below the bound: no interval exactly if the sample has no more than log2(2/alpha) values;
    otherwise it contains the median of the sample. *)
Theorem C125_small : forall quantile alpha x, 0 < alpha < 1 -> INR (length x) < clt_bound alpha ->
  (median_ci quantile alpha x = None <-> 2 ^ length x <= 2 / alpha) /\
  forall m a b, median_ci quantile alpha x = Some (m, (a, b)) -> median x = Some m /\ a <= 0 <= b /\ In (m + a) x /\ In (m + b) x.
Proof.
  intros quantile alpha x Ha Hn. assert (EQ : alpha / 2 <= / 2 ^ length x <-> 2 ^ length x <= 2 / alpha).
  { pose proof (pow2 (length x)) as P. set (q := 2 ^ length x) in *. replace (2 / alpha) with (/ (alpha / 2)) by (field; lra). split; intros H; [rewrite <- (Rinv_inv q)|rewrite <- (Rinv_inv (alpha / 2))]; apply Rinv_le_contravar; try lra. }
  unfold median_ci. destruct (Nat.eq_dec (length x) 0) as [L0|L0].
  { assert (x = []) by (destruct x; [auto|discriminate]). subst x. cbn [median length Nat.eqb bind]. split; [|discriminate]. split; auto. intros _. cbn. apply (Rmult_le_reg_l alpha); [lra|]. replace (alpha * (2 / alpha)) with 2 by (field; lra). lra. }
  destruct (median_some x ltac:(lia)) as [m E]. rewrite E. cbn [bind]. destruct (Req_EM_T alpha 0); [lra|]. destruct (Req_EM_T alpha 2); [lra|]. destruct (Rlt_dec _ _); [|contradiction]. pose proof (sort_length x) as L.
  rewrite (small_ixs (length x) alpha Ha ltac:(lia) _ _ L). pose proof (ixs_none (length x) alpha Ha ltac:(lia)) as N. destruct (ixs (length x) alpha) as [[j k]|] eqn:I.
  - destruct (ixs_some (length x) alpha Ha ltac:(lia) j k I) as (Hjk & _ & D). rewrite interval_nat by lia. cbn [bind]. split.
    + split; [discriminate|]. intros H. apply EQ in H. apply N in H. discriminate.
    + intros m' a b Q. apply WienerProofs.some_inj in Q. apply pair_equal_spec in Q. destruct Q as [<- Q]. apply pair_equal_spec in Q. destruct Q as [<- <-]. pose proof (interval_contains x m j k E ltac:(lia) ltac:(lia) D). split; auto. split; [lra|].
      split; apply (Permutation_in _ (sort_perm x)); [replace (m + (nth j (sort x) 0 - m)) with (nth j (sort x) 0) by ring|replace (m + (nth k (sort x) 0 - m)) with (nth k (sort x) 0) by ring]; apply nth_In; lia.
  - cbn [bind]. split; [|discriminate]. split; auto. intros _. apply EQ, N. reflexivity.
Qed.
Print Assumptions C125_small.

(** Counting samples. *)
Definition cnt (P : R -> bool) (t : list R) : nat := length (filter P t).
Lemma draws_step : forall (f : list R -> bool) D pop, length (filter f (flat_map (fun a => map (cons a) D) pop)) = fold_right (fun a r => (length (filter (fun t => f (a :: t)) D) + r)%nat) 0%nat pop.
Proof.
  intros f D. induction pop as [|a pop IH]; [reflexivity|]. cbn [flat_map fold_right]. rewrite filter_app_len, IH. f_equal. clear IH. induction D as [|t D IHD]; [reflexivity|]. cbn [map filter]. destruct (f (a :: t)); cbn [length]; now rewrite IHD.
Qed.
Lemma draws_length : forall pop n, length (draws pop n) = (length pop ^ n)%nat.
Proof.
  intros pop n. induction n as [|n IH]; [reflexivity|]. cbn [draws Nat.pow]. rewrite <- IH. generalize (draws pop n). intros D. clear IH. induction pop as [|a pop IH]; [reflexivity|]. cbn [flat_map length]. rewrite app_length, map_length, IH. lia.
Qed.
Lemma draws_in : forall pop n t, In t (draws pop n) -> length t = n.
Proof. intros pop n. induction n as [|n IH]; intros t H; cbn [draws] in H; [destruct H as [<-|[]]; reflexivity|]. apply in_flat_map in H. destruct H as (a & _ & H). apply in_map_iff in H. destruct H as (u & <- & H). cbn. f_equal. auto. Qed.
Lemma draws_count : forall P pop n i, (0 < length pop)%nat ->
  INR (length (filter (fun t => Nat.leb i (cnt P t)) (draws pop n))) = INR (length pop) ^ n * tail n (INR (cnt P pop) / INR (length pop)) i.
Proof.
  intros P pop n. induction n as [|n IH]; intros i H.
  - destruct i; cbn; lra.
  - destruct i as [|i].
    + rewrite tail_0. rewrite filter_all by reflexivity. rewrite draws_length, pow_INR. lra.
    + cbn [draws tail pow]. rewrite draws_step. pose proof (IH i H) as A. pose proof (IH (S i) H) as B. set (M := INR (length pop)) in *. assert (HM : 0 < M) by (apply lt_0_INR; lia). set (p := INR (cnt P pop) / M) in *. set (D := draws pop n) in *.
      set (u := length (filter (fun t => Nat.leb i (cnt P t)) D)) in *. set (v := length (filter (fun t => Nat.leb (S i) (cnt P t)) D)) in *.
      assert (E : forall l, INR (fold_right (fun a r => (length (filter (fun t => Nat.leb (S i) (cnt P (a :: t))) D) + r)%nat) 0%nat l) = INR (cnt P l) * INR u + (INR (length l) - INR (cnt P l)) * INR v).
      { induction l as [|a l IHl]; [cbn; ring|]. cbn [fold_right length]. rewrite plus_INR, IHl, S_INR. assert (CE : cnt P (a :: l) = if P a then S (cnt P l) else cnt P l) by (unfold cnt; cbn [filter]; destruct (P a); reflexivity). rewrite CE. clear CE. destruct (P a) eqn:Pa.
        - assert (F : length (filter (fun t => Nat.leb (S i) (cnt P (a :: t))) D) = u) by (unfold u; f_equal; apply filter_ext; intros t; unfold cnt; cbn [filter]; rewrite Pa; reflexivity). rewrite F. rewrite S_INR. ring.
        - assert (F : length (filter (fun t => Nat.leb (S i) (cnt P (a :: t))) D) = v) by (unfold v; f_equal; apply filter_ext; intros t; unfold cnt; cbn [filter]; rewrite Pa; reflexivity). rewrite F. ring. }
      rewrite E, A, B. fold M. assert (EP : INR (cnt P pop) = p * M) by (unfold p; field; lra). rewrite EP. ring.
Qed.
Lemma filter_union : forall {A} (f g h : A -> bool) l, (forall t, In t l -> f t = true \/ g t = true \/ h t = true) -> (length l <= length (filter f l) + length (filter g l) + length (filter h l))%nat.
Proof.
  intros A f g h. induction l as [|t l IH]; intros H; cbn [filter length]; [lia|]. pose proof (IH ltac:(intros; apply H; now right)). destruct (H t ltac:(now left)) as [E|[E|E]]; rewrite E; destruct (f t), (g t), (h t); cbn [length]; lia.
Qed.
(** The level of confidence: of all samples of a size that allows an interval, drawn from any
    population (with or without ties), the intervals of at least the fraction [1 - alpha] contain
    the median of the population. *)
Theorem C125_coverage : forall quantile alpha pop c n, 0 < alpha < 1 -> INR n < clt_bound alpha -> 2 / alpha < 2 ^ n -> (0 < length pop)%nat -> is_median c pop ->
  (1 - alpha) * INR (length (draws pop n)) <= INR (length (filter (fun t => covers c (median_ci quantile alpha t)) (draws pop n))).
Proof.
  intros quantile alpha pop c n Ha Hn H2 Hp [Hab Hbe]. assert (N0 : (0 < n)%nat). { destruct n; [|lia]. cbn in H2. assert (1 < 2 / alpha); [|lra]. apply (Rmult_lt_reg_l alpha); [lra|]. replace (alpha * (2 / alpha)) with 2 by (field; lra). lra. }
  pose proof (ixs_none n alpha Ha N0) as IN. destruct (ixs n alpha) as [[j k]|] eqn:I.
  2:{ exfalso. pose proof (proj1 IN eq_refl) as Q. pose proof (pow2 n) as P. assert (2 ^ n <= 2 / alpha); [|lra]. replace (2 / alpha) with (/ (alpha / 2)) by (field; lra). rewrite <- (Rinv_inv (2 ^ n)). apply Rinv_le_contravar; lra. }
  destruct (ixs_some n alpha Ha N0 j k I) as (Hjk & Cov & _).
  assert (U : forall t, In t (draws pop n) -> covers c (median_ci quantile alpha t) = true \/ Nat.leb (n - j) (above c t) = true \/ Nat.leb (S k) (below c t) = true).
  { intros t Ht. pose proof (draws_in _ _ _ Ht) as L. destruct (Nat.leb_spec (n - j) (above c t)); [auto|]. destruct (Nat.leb_spec (S k) (below c t)); [auto|]. left. unfold median_ci. destruct (median_some t ltac:(lia)) as [m E]. rewrite E. cbn [bind]. destruct (Req_EM_T alpha 0); [lra|]. destruct (Req_EM_T alpha 2); [lra|]. rewrite L. destruct (Rlt_dec _ _); [|contradiction].
    rewrite (small_ixs n alpha Ha N0) by (rewrite sort_length; exact L). rewrite I. rewrite interval_nat by (rewrite sort_length; lia). cbn [bind covers]. pose proof (proj2 (order_le t c j ltac:(lia)) ltac:(lia)). pose proof (proj2 (order_ge t c k ltac:(lia)) ltac:(lia)). destruct (Rle_dec _ _); [|lra]. destruct (Rle_dec _ _); [reflexivity|lra]. }
  pose proof (filter_union _ _ _ _ U) as F. apply le_INR in F. rewrite !plus_INR in F.
  pose proof (draws_count (fun v => if Rlt_dec c v then true else false) pop n (n - j) Hp) as D1. pose proof (draws_count (fun v => if Rlt_dec v c then true else false) pop n (S k) Hp) as D2. change (fun t => Nat.leb (n - j) (cnt (fun v => if Rlt_dec c v then true else false) t)) with (fun t => Nat.leb (n - j) (above c t)) in D1. change (fun t => Nat.leb (S k) (cnt (fun v => if Rlt_dec v c then true else false) t)) with (fun t => Nat.leb (S k) (below c t)) in D2. rewrite D1, D2 in F.
  set (M := INR (length pop)) in *. assert (HM : 0 < M) by (apply lt_0_INR; lia). assert (EL : INR (length (draws pop n)) = M ^ n) by (rewrite draws_length, pow_INR; reflexivity). rewrite EL in *. assert (HMn : 0 < M ^ n) by (apply pow_lt; auto).
  assert (T : forall q i, (2 * q <= length pop)%nat -> tail n (INR q / M) i <= tail n (1 / 2) i). { intros q i Hq. apply tail_mono; [|lra]. apply le_INR in Hq. rewrite mult_INR in Hq. change (INR 2) with (1 + 1) in Hq. fold M in Hq. pose proof (pos_INR q). split; [apply Rmult_le_pos; auto; apply Rlt_le, Rinv_0_lt_compat, HM|]. apply (Rmult_le_reg_l M); auto. replace (M * (INR q / M)) with (INR q) by (field; lra). lra. }
  pose proof (T _ (n - j)%nat Hab) as T1. pose proof (T _ (S k) Hbe) as T2. change (above c pop) with (cnt (fun v => if Rlt_dec c v then true else false) pop) in T1. change (below c pop) with (cnt (fun v => if Rlt_dec v c then true else false) pop) in T2. rewrite tail_low in T1 by lia. pose proof (low_tail n (S k)) as LT.
  apply (Rmult_le_compat_l (M ^ n)) in T1; [|lra]. apply (Rmult_le_compat_l (M ^ n)) in T2; [|lra]. apply (Rmult_le_compat_l (M ^ n)) in Cov; [|lra]. rewrite LT in Cov. lra.
Qed.
Print Assumptions C125_coverage.
(** From the bound on: an interval always exists and contains the median of the sample.  The
    quantile of the normal distribution is positive, and by Chebyshev's inequality at most
    [1 / sqrt alpha]; nothing else about it is used. *)
Theorem C125_large : forall quantile alpha x, 0 < alpha < 1 -> clt_bound alpha <= INR (length x) ->
  0 <= quantile (1 - alpha / 2) -> alpha * quantile (1 - alpha / 2) ^ 2 <= 1 ->
  exists m a b, median_ci quantile alpha x = Some (m, (a, b)) /\ median x = Some m /\ a <= 0 <= b /\ In (m + a) x /\ In (m + b) x.
Proof.
  intros quantile alpha x Ha Hn Q0 Q1. set (eta := quantile (1 - alpha / 2)) in *. set (n := length x) in *. set (N := INR n) in *.
  assert (B : 10 / alpha <= N) by (eapply Rle_trans; [apply Rmax_l|exact Hn]). assert (B' : 10 <= alpha * N). { apply (Rmult_le_compat_l alpha) in B; [|lra]. replace (alpha * (10 / alpha)) with 10 in B by (field; lra). exact B. }
  assert (N10 : 10 <= N) by nra. assert (Hn10 : (10 <= n)%nat). { apply INR_le. replace (INR 10) with 10 by (cbn; lra). exact N10. }
  assert (E1 : 0 <= eta * sqrt N <= N / 3). { pose proof (sqrt_pos N) as SP. split; [apply Rmult_le_pos; auto|]. apply Rsqr_incr_0_var; [|lra]. unfold Rsqr. replace (eta * sqrt N * (eta * sqrt N)) with (eta ^ 2 * (sqrt N * sqrt N)) by ring. rewrite sqrt_sqrt by lra. assert (10 * eta ^ 2 <= N). { apply (Rmult_le_reg_l alpha); [lra|]. nra. } pose proof (pow2_ge_0 eta). nra. }
  destruct (median_some x ltac:(fold n; lia)) as [m E]. unfold median_ci. rewrite E. cbn [bind]. destruct (Req_EM_T alpha 0); [lra|]. destruct (Req_EM_T alpha 2); [lra|]. fold n N. destruct (Rlt_dec _ _); [lra|]. unfold large_ci. destruct (Rlt_dec alpha 0); [lra|]. destruct (Rlt_dec 2 alpha); [lra|]. rewrite sort_length. fold n N eta.
  set (u := 1 / 2 * N - 1 / 2 * eta * sqrt N). set (v := 1 / 2 * N + 1 / 2 * eta * sqrt N). assert (Hu : N / 3 <= u <= N / 2) by (unfold u; lra). assert (Hv : N / 2 <= v <= 2 * N / 3) by (unfold v; lra).
  destruct (base_Int_part u) as [U1 U2]. destruct (base_Int_part (- v)) as [V1 V2]. set (ju := Int_part u) in *. set (kv := Int_part (- v)) in *.
  assert (NZ : N = IZR (Z.of_nat n)) by (unfold N; apply INR_IZR_INZ). assert (J1 : (3 <= ju)%Z). { apply Z.lt_succ_r. apply lt_IZR. rewrite succ_IZR. assert (3 < IZR ju + 1); [|lra]. lra. }
  assert (J2 : (2 * ju <= Z.of_nat n)%Z). { apply le_IZR. rewrite mult_IZR. lra. } assert (K1 : (Z.of_nat n <= 2 * - kv)%Z). { apply le_IZR. rewrite mult_IZR, opp_IZR. lra. } assert (K2 : (- kv < Z.of_nat n)%Z). { apply lt_IZR. rewrite opp_IZR. lra. }
  replace (ju - 1)%Z with (Z.of_nat (Z.to_nat (ju - 1))) by lia. replace (- kv)%Z with (Z.of_nat (Z.to_nat (- kv))) by lia. set (j := Z.to_nat (ju - 1)). set (k := Z.to_nat (- kv)). assert (Hj : (2 * (j + 1) <= n)%nat) by lia. assert (Hk : (n <= 2 * k /\ k < n)%nat) by lia.
  rewrite interval_nat by (rewrite sort_length; fold n; lia). cbn [bind]. do 3 eexists. split; [reflexivity|]. split; [reflexivity|].
  pose proof (halves n ltac:(lia)) as Hh. split. { apply (interval_contains x m j k E); fold n; [lia|lia|]. destruct (Nat.odd n); lia. }
  pose proof (sort_length x) as L. fold n in L. split; apply (Permutation_in _ (sort_perm x)); [replace (m + (nth j (sort x) 0 - m)) with (nth j (sort x) 0) by ring|replace (m + (nth k (sort x) 0 - m)) with (nth k (sort x) 0) by ring]; apply nth_In; lia.
Qed.
Print Assumptions C125_large.
Lemma ppf_is : forall n q k, 0 < q <= 1 -> (k <= n)%nat -> low n k < q <= low n (S k) -> ppf n q = Some (Z.of_nat k).
Proof.
  intros n q k Hq Hk H. destruct (ppf_spec n q Hq) as (k' & E & H1 & H2 & H3). rewrite E. f_equal. f_equal. destruct (Nat.lt_trichotomy k' k) as [Hl|[->|Hl]]; auto.
  - pose proof (low_mono n (S k') k ltac:(lia)). lra.
  - pose proof (H3 (S k) ltac:(lia)). lra.
Qed.
(** Two values, 10 percent. *)
Lemma two_values : forall quantile, median_ci quantile (9 / 10) [2; 0] = Some (1, (-1, 1)).
Proof.
  intros quantile. assert (S2 : sort [2; 0] = [0; 2]) by (cbn [sort insert]; destruct (Rle_dec 2 0); [lra|reflexivity]).
  unfold median_ci, median. rewrite S2. cbn [length Nat.eqb Nat.odd Nat.even negb bind Nat.div Nat.divmod fst Nat.sub nth]. destruct (Req_EM_T (9 / 10) 0); [lra|]. destruct (Req_EM_T (9 / 10) 2); [lra|]. destruct (Rlt_dec _ _) as [_|Hn]. 2:{ exfalso. apply Hn. cbn [INR]. apply Rlt_le_trans with (10 / (9 / 10)); [lra|apply Rmax_l]. }
  rewrite (small_ixs 2) by (try reflexivity; try lia; lra). unfold ixs. rewrite (ppf_is 2 (9 / 10 / 2) 1), (ppf_is 2 (1 - 9 / 10 / 2) 1) by (try lia; try lra; unfold low; cbn; lra). cbn [Z.of_nat Pos.of_succ_nat Z.sub Z.opp Z.add Z.pos_sub Z.ltb Z.compare Z.to_nat]. destruct (Rlt_dec _ _) as [_|Hq]; [|exfalso; apply Hq; lra]. change (interval [0; 2] ?m _ _) with (interval [0; 2] m (Z.of_nat 0) (Z.of_nat 1)). rewrite interval_nat by (cbn; lia). cbn [bind nth]. f_equal. f_equal; [lra|]. f_equal; lra.
Qed.
Example C125_example : forall quantile, median_ci quantile (9 / 10) [2; 0] = Some (1, (-1, 1)) /\ is_median 1 [0; 1; 1; 5] /\ INR 3 < clt_bound (1 / 2) /\ 2 / (1 / 2) < 2 ^ 3.
Proof.
  intros quantile. split; [apply two_values|]. split; [unfold is_median, above, below; cbn [filter]; repeat (destruct (Rlt_dec _ _); try lra); cbn; lia|]. split; [|cbn; lra]. apply Rlt_le_trans with (10 / (1 / 2)); [cbn; lra|apply Rmax_l].
Qed.
(** The documentation gives the interval as [m - le, m + ue], but the lower value comes with its
    sign: it is [m + le, m + ue]. *)
Theorem C125_sign_refuted : exists alpha x m le ue, forall quantile, median_ci quantile alpha x = Some (m, (le, ue)) /\ 0 < alpha < 1 /\ ~ m - le <= m <= m + ue /\ m + le <= m <= m + ue.
Proof. exists (9 / 10), [2; 0], 1, (-1), 1. intros quantile. split; [apply two_values|]. lra. Qed.
Print Assumptions C125_sign_refuted.
(** Smallest and largest value of all samples of two values contain the median of the population
    with probability one half, yet at alpha = 1/2 the function raises "no confidence interval
    found" for each of them: it asks for more than [1 - alpha]. *)
Theorem C125_boundary_refuted : exists alpha pop c, is_median c pop /\
  INR (length (filter (fun t => covers c (Some (0, (Rmin (nth 0 t 0) (nth 1 t 0), Rmax (nth 0 t 0) (nth 1 t 0))))) (draws pop 2))) = (1 - alpha) * INR (length (draws pop 2)) /\
  forall quantile t, In t (draws pop 2) -> median_ci quantile alpha t = None.
Proof.
  exists (1 / 2), [0; 1], (1 / 2). split; [unfold is_median, above, below; cbn [filter]; repeat (destruct (Rlt_dec _ _); try lra); cbn; lia|]. split.
  - cbn [draws flat_map map app filter nth covers]. rewrite !Rplus_0_l. rewrite (Rmin_left 0 0), (Rmax_left 0 0), (Rmin_left 0 1), (Rmax_right 0 1), (Rmin_right 1 0), (Rmax_left 1 0), (Rmin_left 1 1), (Rmax_left 1 1) by lra. repeat (destruct (Rle_dec _ _); try lra). cbn. lra.
  - intros quantile t Ht. pose proof (draws_in _ _ _ Ht) as L. apply (C125_small quantile (1 / 2) t); rewrite ?L; [lra| |cbn; lra]. apply Rlt_le_trans with (10 / (1 / 2)); [cbn; lra|apply Rmax_l].
Qed.
Print Assumptions C125_boundary_refuted.
