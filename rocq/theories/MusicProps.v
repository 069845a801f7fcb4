From Coq Require Import List ZArith Lia Reals Lra Bool.
From Verif Require Import Base Sum Cpx ModeModel ModeProps BandsModel DoaModel SrpProps GridModel GridProps BaseProofs.
Import ListNotations.
Local Open Scope R_scope.

(** * A homogeneous linear system with more unknowns than equations has a solution other than zero *)
Fixpoint lincomb (xs : list C) (cols : list (nat -> C)) (r : nat) : C :=
  match xs, cols with x :: xs, c :: cols => Cadd (Cmul x (c r)) (lincomb xs cols r) | _, _ => C0 end.
Lemma lincomb_app : forall x1 l1 x2 l2 r, length x1 = length l1 -> lincomb (x1 ++ x2) (l1 ++ l2) r = Cadd (lincomb x1 l1 r) (lincomb x2 l2 r).
Proof. induction x1 as [|x x1 IH]; intros [|c l1] x2 l2 r H; cbn in *; try lia; [ring|]. rewrite IH by lia. ring. Qed.
Lemma lincomb_elim : forall xs cols (f g : nat -> C) a b (q : nat) r, length xs = length cols ->
  lincomb xs (map (fun c r => Csub (Cmul a (c r)) (Cmul (b r) (c q))) cols) r = Csub (Cmul a (lincomb xs cols r)) (Cmul (b r) (lincomb xs cols q)).
Proof. induction xs as [|x xs IH]; intros [|c cols] f g a b q r H; cbn in *; try lia; [ring|]. rewrite IH by (auto || lia). ring. Qed.
Lemma lincomb_scal : forall xs cols a r, lincomb (map (Cmul a) xs) cols r = Cmul a (lincomb xs cols r).
Proof. induction xs as [|x xs IH]; intros [|c cols] a r; cbn; try ring. rewrite IH. ring. Qed.
Lemma dependence : forall K cols, (K < length cols)%nat -> exists xs, length xs = length cols /\ (exists x, In x xs /\ x <> C0) /\ forall r, (r < K)%nat -> lincomb xs cols r = C0.
Proof.
  induction K as [|K IH]; intros cols H.
  - exists (repeat C1 (length cols)). rewrite repeat_length. split; [reflexivity|]. split; [|intros; lia]. exists C1. split; [destruct cols; cbn in *; [lia|now left]|]. intros E. injection E. lra.
  - assert (D : (forall c, In c cols -> c K = C0) \/ exists l1 p l2, cols = l1 ++ p :: l2 /\ p K <> C0).
    { clear. induction cols as [|c cols [IH|IH]]; [left; intros c []| |].
      - destruct (C_eq_dec (c K) C0) as [E|E]; [left; intros c' [<-|Hc]; auto|right; exists [], c, cols; auto].
      - right. destruct IH as (l1 & p & l2 & -> & E). exists (c :: l1), p, l2. auto. }
    destruct D as [Z|(l1 & p & l2 & -> & Hp)].
    + destruct (IH cols ltac:(lia)) as (xs & L & Nz & E). exists xs. split; [exact L|]. split; [exact Nz|]. intros r Hr. destruct (Nat.eq_dec r K) as [->|]; [|apply E; lia].
      clear -Z L. revert cols Z L. induction xs as [|x xs IH]; intros [|c cols] Z L; cbn in *; try lia; try reflexivity. rewrite (Z c) by now left. rewrite IH by (auto || lia). ring.
    + rewrite app_length in H. cbn [length] in H. set (el := fun (c : nat -> C) r => Csub (Cmul (p K) (c r)) (Cmul (p r) (c K))).
      destruct (IH (map el (l1 ++ l2))) as (xs & L & (x0 & Hx0 & Nz) & E); [rewrite map_length, app_length; lia|]. rewrite map_length, app_length in L.
      set (x1 := firstn (length l1) xs). set (x2 := skipn (length l1) xs). assert (L1 : length x1 = length l1) by (unfold x1; rewrite firstn_length; lia). assert (L2 : length x2 = length l2) by (unfold x2; rewrite skipn_length; lia).
      assert (X : xs = x1 ++ x2) by (symmetry; apply firstn_skipn).
      exists (map (Cmul (p K)) x1 ++ Copp (lincomb xs (l1 ++ l2) K) :: map (Cmul (p K)) x2). split; [rewrite !app_length; cbn [length]; rewrite !map_length; lia|]. split.
      * exists (Cmul (p K) x0). split; [|intros Q; apply Nz; now apply (C_integral (p K))]. rewrite X in Hx0. apply in_app_or in Hx0. apply in_or_app. destruct Hx0 as [I|I]; [left; now apply in_map|right; right; now apply in_map].
      * intros r Hr. rewrite lincomb_app by (rewrite map_length; exact L1). cbn [lincomb]. rewrite !lincomb_scal.
        transitivity (Csub (Cmul (p K) (lincomb xs (l1 ++ l2) r)) (Cmul (p r) (lincomb xs (l1 ++ l2) K))).
        { rewrite X at 2. rewrite (lincomb_app x1 l1 x2 l2 r L1). ring. }
        destruct (Nat.eq_dec r K) as [->|Hne]; [ring|]. rewrite <- (lincomb_elim xs (l1 ++ l2) p p (p K) p K r) by (rewrite app_length; lia). apply E. lia.
Qed.
(** the same with indexed sums *)
Lemma lincomb_csum : forall n (x : nat -> C) (c : nat -> nat -> C) a r, lincomb (map x (seq a n)) (map c (seq a n)) r = csum n (fun j => Cmul (x (a + j)%nat) (c (a + j)%nat r)).
Proof. induction n as [|n IH]; intros x c a r; [reflexivity|]. cbn [seq map lincomb]. rewrite IH, csum_shift. rewrite Nat.add_0_r. f_equal. apply csum_ext. intros j _. replace (S a + j)%nat with (a + S j)%nat by lia. reflexivity. Qed.
Lemma dependent : forall K n (c : nat -> nat -> C), (K < n)%nat -> exists x : nat -> C, (exists j, (j < n)%nat /\ x j <> C0) /\ forall r, (r < K)%nat -> csum n (fun j => Cmul (x j) (c j r)) = C0.
Proof.
  intros K n c H. destruct (dependence K (map c (seq 0 n))) as (xs & L & (y & Hy & Nz) & E); [now rewrite map_length, seq_length|]. rewrite map_length, seq_length in L.
  exists (fun j => nth j xs C0). split.
  - destruct (In_nth xs y C0 Hy) as (j & Hj & Ej). exists j. rewrite Ej. split; [lia|exact Nz].
  - intros r Hr. transitivity (lincomb (map (fun j => nth j xs C0) (seq 0 n)) (map c (seq 0 n)) r); [symmetry; exact (lincomb_csum n (fun j => nth j xs C0) c 0 r)|]. refine (eq_trans _ (E r Hr)). f_equal. clear E.
    rewrite <- L. apply (nth_ext _ _ C0 C0); [now rewrite map_length, seq_length|]. intros i Hi. rewrite map_length, seq_length in Hi. rewrite (nth_indep _ C0 (nth 0%nat xs C0)) by now rewrite map_length, seq_length. rewrite (map_nth (fun j => nth j xs C0)), seq_nth by assumption. reflexivity.
Qed.

(** * What is asked of the eigenvalue decomposition: real eigenvalues in ascending order and orthonormal eigenvectors,
    which form a basis *)
Definition cip (M : nat) (a b : nat -> C) : C := csum M (fun i => Cmul (Conj (a i)) (b i)).
Definition delta (i j : nat) : C := if (i =? j)%nat then C1 else C0.
Definition is_eigh (M : nat) (A : nat -> nat -> C) (w : nat -> R) (E : nat -> nat -> C) : Prop :=
  (forall p q, (p < M)%nat -> (q < M)%nat -> cip M (fun i => E i p) (fun i => E i q) = delta p q) /\
  (forall i j, (i < M)%nat -> (j < M)%nat -> csum M (fun q => Cmul (E i q) (Conj (E j q))) = delta i j) /\
  (forall i q, (i < M)%nat -> (q < M)%nat -> csum M (fun j => Cmul (A i j) (E j q)) = Cmul (RtoC (w q)) (E i q)) /\
  (forall p q, (p <= q)%nat -> (q < M)%nat -> w p <= w q).

Lemma cip_self : forall M a, cip M a a = RtoC (bsum M (fun i => Cabs2 (a i))).
Proof. intros M a. unfold cip. rewrite <- csum_RtoC. apply csum_ext. intros i _. rewrite <- Cmul_conj. ring. Qed.
Lemma cip_conj : forall M a b, Conj (cip M a b) = cip M b a.
Proof. intros M a b. unfold cip. rewrite csum_conj. apply csum_ext. intros i _. rewrite Conj_mul, Conj_conj. ring. Qed.
Lemma expand : forall M (E : nat -> nat -> C) a i, (forall i j, (i < M)%nat -> (j < M)%nat -> csum M (fun q => Cmul (E i q) (Conj (E j q))) = delta i j) -> (i < M)%nat ->
  csum M (fun q => Cmul (E i q) (cip M (fun j => E j q) a)) = a i.
Proof.
  intros M E a i H Hi. transitivity (csum M (fun j => Cmul (csum M (fun q => Cmul (E i q) (Conj (E j q)))) (a j))).
  - transitivity (csum M (fun q => csum M (fun j => Cmul (Cmul (E i q) (Conj (E j q))) (a j)))).
    + apply csum_ext. intros q _. unfold cip. rewrite <- csum_scal. apply csum_ext. intros j _. ring.
    + rewrite csum_swap. apply csum_ext. intros j _. now rewrite csum_scal_r.
  - rewrite (csum_delta M i); [rewrite H by assumption; unfold delta; rewrite Nat.eqb_refl; ring|assumption|]. intros j Hj Hne. rewrite H by assumption. unfold delta. destruct (Nat.eqb_spec i j); [lia|ring].
Qed.

Section Denominator.
Variables (M num_src : nat) (mode : nat -> nat -> nat -> C) (v : nat -> nat -> nat -> C) (k : nat).
Hypothesis complete : forall i j, (i < M)%nat -> (j < M)%nat -> csum M (fun q => Cmul (v k i q) (Conj (v k j q))) = delta i j.
Let noise := n_noise M num_src.
Lemma noise_le : (noise <= M)%nat.
Proof. unfold noise, n_noise. destruct (num_src =? 0)%nat; lia. Qed.
Lemma noise_cross_eq : forall i j, (i < M)%nat -> (j < M)%nat -> noise_cross M num_src v k i j = csum noise (fun q => Cmul (v k i q) (Conj (v k j q))).
Proof.
  intros i j Hi Hj. unfold noise_cross. fold noise. pose proof (complete i j Hi Hj) as E. replace M with (noise + (M - noise))%nat in E at 1 by (pose proof noise_le; lia). rewrite csum_split in E.
  replace (RtoC (if (i =? j)%nat then 1 else 0)) with (delta i j) by (unfold delta; destruct (i =? j)%nat; reflexivity). rewrite <- E. ring.
Qed.
Lemma denom_eq : forall n, music_denom M num_src mode v k n = RtoC (bsum noise (fun q => Cabs2 (cip M (fun i => v k i q) (fun i => mode k i n)))).
Proof.
  intros n. unfold music_denom.
  transitivity (csum M (fun i => csum noise (fun q => Cmul (Cmul (Conj (mode k i n)) (v k i q)) (cip M (fun i => v k i q) (fun i => mode k i n))))).
  - apply csum_ext. intros i Hi. rewrite (csum_ext M _ (fun j => csum noise (fun q => Cmul (Cmul (v k i q) (Conj (v k j q))) (mode k j n)))).
    + rewrite csum_swap, <- csum_scal. apply csum_ext. intros q _. unfold cip. rewrite <- !csum_scal. apply csum_ext. intros j _. ring.
    + intros j Hj. rewrite noise_cross_eq by assumption. now rewrite csum_scal_r.
  - rewrite csum_swap, <- csum_RtoC. apply csum_ext. intros q _. rewrite csum_scal_r. rewrite <- Cmul_conj, cip_conj. unfold cip. ring.
Qed.
Lemma Cabs_RtoC : forall x, 0 <= x -> Cabs (RtoC x) = x.
Proof. intros x H. unfold Cabs, Cabs2, RtoC. cbn [fst snd]. replace (x * x + 0 * 0) with (x * x) by ring. now apply sqrt_square. Qed.
Lemma noise_power_nonneg : forall n, 0 <= bsum noise (fun q => Cabs2 (cip M (fun i => v k i q) (fun i => mode k i n))).
Proof. intros. apply bsum_nonneg. intros. apply Cabs2_nonneg. Qed.
Lemma pseudo_eq : forall n, pseudo M num_src mode v k n = let d := bsum noise (fun q => Cabs2 (cip M (fun i => v k i q) (fun i => mode k i n))) in if Req_EM_T d 0 then None else Some (/ d).
Proof. intros n. unfold pseudo. rewrite denom_eq, Cabs_RtoC by apply noise_power_nonneg. reflexivity. Qed.
Lemma pseudo_none : forall n, pseudo M num_src mode v k n = None <-> forall q, (q < noise)%nat -> cip M (fun i => v k i q) (fun i => mode k i n) = C0.
Proof.
  intros n. rewrite pseudo_eq. cbv zeta. destruct (Req_EM_T _ 0) as [E|E].
  - split; [|reflexivity]. intros _ q Hq. apply Cabs2_zero.
    assert (W : forall n (g : nat -> R), (forall i, 0 <= g i) -> bsum n g = 0 -> forall i, (i < n)%nat -> g i = 0).
    { clear. induction n as [|n IH]; intros g Hg E i Hi; [lia|]. cbn [bsum] in E. pose proof (bsum_nonneg n g (fun i _ => Hg i)). pose proof (Hg n). destruct (Nat.eq_dec i n) as [->|]; [lra|]. apply (IH g); auto; [lra|lia]. }
    exact (W noise (fun q => Cabs2 (cip M (fun i => v k i q) (fun i => mode k i n))) (fun _ => Cabs2_nonneg _) E q Hq).
  - split; [discriminate|]. intros Q. exfalso. apply E. apply bsum_zero_ext. intros q Hq. rewrite Q by assumption. unfold Cabs2, C0. cbn. ring.
Qed.
End Denominator.

(** * The eigenvectors when the covariance is that of K uncorrelated sources in white noise *)
Section Sources.
Variables (M K : nat) (A : nat -> nat -> C) (a : nat -> nat -> C) (P : nat -> nat -> C) (sigma2 : R) (w : nat -> R) (E : nat -> nat -> C).
(** [a i p]: the phase of source [p] at microphone [i]; [P]: the covariance of the source signals *)
Definition source_covariance : Prop := forall i j, (i < M)%nat -> (j < M)%nat ->
  A i j = Cadd (csum K (fun p => csum K (fun q => Cmul (Cmul (a i p) (P p q)) (Conj (a j q))))) (Cscal sigma2 (delta i j)).
Definition positive_definite : Prop := forall x : nat -> C, (exists p, (p < K)%nat /\ x p <> C0) ->
  0 < fst (csum K (fun p => csum K (fun q => Cmul (Cmul (Conj (x p)) (P p q)) (x q)))).
Definition independent : Prop := forall x : nat -> C, (forall i, (i < M)%nat -> csum K (fun p => Cmul (x p) (a i p)) = C0) -> forall p, (p < K)%nat -> x p = C0.
Hypothesis Hcov : source_covariance.
Hypothesis Hpd : positive_definite.
Hypothesis Heig : is_eigh M A w E.
Let y q p := cip M (fun i => a i p) (fun i => E i q).
Let c q p := csum K (fun r => Cmul (P p r) (y q r)).
Let mu q := w q - sigma2.
Lemma range_eq : forall i q, (i < M)%nat -> (q < M)%nat -> Cmul (RtoC (mu q)) (E i q) = csum K (fun p => Cmul (a i p) (c q p)).
Proof.
  intros i q Hi Hq. destruct Heig as (_ & _ & Ev & _). specialize (Ev i q Hi Hq).
  assert (Q : csum M (fun j => Cmul (A i j) (E j q)) = Cadd (csum K (fun p => Cmul (a i p) (c q p))) (Cmul (RtoC sigma2) (E i q))).
  { transitivity (csum M (fun j => Cadd (csum K (fun p => csum K (fun r => Cmul (Cmul (Cmul (a i p) (P p r)) (Conj (a j r))) (E j q)))) (Cmul (Cscal sigma2 (delta i j)) (E j q)))).
    - apply csum_ext. intros j Hj. rewrite (Hcov i j Hi Hj). transitivity (Cadd (Cmul (csum K (fun p => csum K (fun r => Cmul (Cmul (a i p) (P p r)) (Conj (a j r))))) (E j q)) (Cmul (Cscal sigma2 (delta i j)) (E j q))); [ring|]. f_equal.
      rewrite <- csum_scal_r. apply csum_ext. intros p _. rewrite <- csum_scal_r. reflexivity.
    - rewrite csum_add. f_equal.
      + rewrite csum_swap. apply csum_ext. intros p _. unfold c. rewrite <- csum_scal, csum_swap. apply csum_ext. intros r _. unfold y, cip. rewrite <- !csum_scal. apply csum_ext. intros j _. ring.
      + rewrite (csum_delta M i); [unfold delta; rewrite Nat.eqb_refl, Cscal_RtoC; ring|assumption|]. intros j Hj Hne. unfold delta. destruct (Nat.eqb_spec i j); [lia|]. rewrite Cscal_RtoC. ring. }
  rewrite Ev in Q. unfold mu. transitivity (Csub (Cmul (RtoC (w q)) (E i q)) (Cmul (RtoC sigma2) (E i q))); [unfold RtoC; apply C_eq; cbn; ring|]. rewrite Q. ring.
Qed.
Lemma mu_form : forall q, (q < M)%nat -> mu q = fst (csum K (fun p => csum K (fun r => Cmul (Cmul (Conj (y q p)) (P p r)) (y q r)))).
Proof.
  intros q Hq. destruct Heig as (On & _ & _ & _). specialize (On q q Hq Hq). unfold delta in On. rewrite Nat.eqb_refl in On.
  assert (Q : Cmul (RtoC (mu q)) (cip M (fun i => E i q) (fun i => E i q)) = csum K (fun p => csum K (fun r => Cmul (Cmul (Conj (y q p)) (P p r)) (y q r)))).
  { unfold cip at 1. rewrite <- csum_scal. transitivity (csum M (fun i => csum K (fun p => Cmul (Conj (E i q)) (Cmul (a i p) (c q p))))).
    - apply csum_ext. intros i Hi. rewrite csum_scal, <- range_eq by assumption. ring.
    - rewrite csum_swap. apply csum_ext. intros p _. transitivity (Cmul (Conj (y q p)) (c q p)).
      + unfold y. rewrite cip_conj. unfold cip. rewrite <- csum_scal_r. apply csum_ext. intros i _. ring.
      + unfold c. rewrite <- csum_scal. apply csum_ext. intros r _. ring. }
  rewrite <- Q, On. unfold RtoC, C1. cbn. ring.
Qed.
Lemma mu_pos : forall q, (q < M)%nat -> (exists p, (p < K)%nat /\ y q p <> C0) -> 0 < mu q.
Proof. intros q Hq H. rewrite mu_form by assumption. now apply Hpd. Qed.
Lemma y_dec : forall q, (exists p, (p < K)%nat /\ y q p <> C0) \/ forall p, (p < K)%nat -> y q p = C0.
Proof.
  intros q. clear. induction K as [|n IH]; [right; intros; lia|]. destruct IH as [(p & Hp & H)|IH]; [left; exists p; split; [lia|exact H]|]. destruct (C_eq_dec (y q n) C0) as [Z|Z]; [|left; exists n; split; [lia|exact Z]]. right. intros p Hp. destruct (Nat.eq_dec p n) as [->|]; [exact Z|apply IH; lia].
Qed.
Lemma mu_zero : forall q, (q < M)%nat -> mu q <= 0 -> forall p, (p < K)%nat -> y q p = C0.
Proof. intros q Hq H. destruct (y_dec q) as [N|Z]; [pose proof (mu_pos q Hq N); lra|exact Z]. Qed.
Lemma mu_mono : forall p q, (p <= q)%nat -> (q < M)%nat -> mu p <= mu q.
Proof. intros p q Hp Hq. destruct Heig as (_ & _ & _ & As). pose proof (As p q Hp Hq). unfold mu. lra. Qed.
(** the noise eigenvectors are orthogonal to the sources *)
Lemma noise_orthogonal : forall q, (q < M - K)%nat -> forall p, (p < K)%nat -> y q p = C0.
Proof.
  intros q Hq. destruct (y_dec q) as [N|Z]; [|exact Z]. exfalso. pose proof (mu_pos q ltac:(lia) N) as Pq.
  destruct (dependent K (M - q) (fun j r => c (q + j)%nat r) ltac:(lia)) as (x & (j0 & Hj0 & Nz) & Dep).
  assert (Z : forall i, (i < M)%nat -> csum (M - q) (fun j => Cmul (Cmul (x j) (RtoC (mu (q + j)%nat))) (E i (q + j)%nat)) = C0).
  { intros i Hi. transitivity (csum K (fun p => Cmul (a i p) (csum (M - q) (fun j => Cmul (x j) (c (q + j)%nat p))))).
    - transitivity (csum (M - q) (fun j => csum K (fun p => Cmul (a i p) (Cmul (x j) (c (q + j)%nat p))))).
      + apply csum_ext. intros j Hj. transitivity (Cmul (x j) (Cmul (RtoC (mu (q + j)%nat)) (E i (q + j)%nat))); [ring|]. rewrite range_eq by lia. rewrite <- csum_scal. apply csum_ext. intros p _. ring.
      + rewrite csum_swap. apply csum_ext. intros p _. now rewrite csum_scal.
    - apply csum_zero_ext. intros p Hp. rewrite Dep by assumption. ring. }
  destruct Heig as (On & _ & _ & _).
  assert (W : Cmul (x j0) (RtoC (mu (q + j0)%nat)) = C0).
  { transitivity (csum M (fun i => Cmul (Conj (E i (q + j0)%nat)) (csum (M - q) (fun j => Cmul (Cmul (x j) (RtoC (mu (q + j)%nat))) (E i (q + j)%nat))))).
    - transitivity (csum (M - q) (fun j => Cmul (Cmul (x j) (RtoC (mu (q + j)%nat))) (cip M (fun i => E i (q + j0)%nat) (fun i => E i (q + j)%nat)))).
      + rewrite (csum_delta (M - q) j0); [rewrite On by lia; unfold delta; rewrite Nat.eqb_refl; ring|assumption|]. intros j Hj Hne. rewrite On by lia. unfold delta. destruct (Nat.eqb_spec (q + j0) (q + j)); [lia|ring].
      + unfold cip. rewrite (csum_ext (M - q) _ (fun j => csum M (fun i => Cmul (Conj (E i (q + j0)%nat)) (Cmul (Cmul (x j) (RtoC (mu (q + j)%nat))) (E i (q + j)%nat))))).
        * rewrite csum_swap. apply csum_ext. intros i _. now rewrite csum_scal.
        * intros j _. rewrite <- csum_scal. apply csum_ext. intros i _. ring.
    - apply csum_zero_ext. intros i Hi. rewrite Z by assumption. ring. }
  pose proof (mu_mono q (q + j0) ltac:(lia) ltac:(lia)) as Mo. apply (C_integral _ _ W) in Nz. injection Nz as N1. lra.
Qed.
(** the other eigenvectors are combinations of the sources *)
Lemma signal_positive : independent -> forall q, (M - K <= q)%nat -> (q < M)%nat -> 0 < mu q.
Proof.
  intros Ind q Hq HM. destruct (Rlt_le_dec 0 (mu q)) as [|N]; [assumption|]. exfalso.
  assert (Y0 : forall q', (q' <= q)%nat -> forall p, (p < K)%nat -> y q' p = C0). { intros q' Hq'. apply mu_zero; [lia|]. pose proof (mu_mono q' q Hq' HM). lra. }
  destruct (dependent (M - 1 - q) K (fun p r => cip M (fun i => E i (q + 1 + r)%nat) (fun i => a i p)) ltac:(lia)) as (x & (p0 & Hp0 & Nz) & Dep). apply Nz. apply (Ind x); [|assumption]. intros i Hi.
  destruct Heig as (_ & Cp & _ & _).
  transitivity (csum K (fun p => csum M (fun q' => Cmul (E i q') (Cmul (x p) (cip M (fun j => E j q') (fun j => a j p)))))).
  - apply csum_ext. intros p _. rewrite <- (expand M E (fun j => a j p) i Cp Hi) at 1. rewrite <- csum_scal. apply csum_ext. intros q' _. ring.
  - rewrite csum_swap. apply csum_zero_ext. intros q' Hq'. rewrite csum_scal. replace (csum K _) with C0; [ring|]. symmetry. destruct (Nat.le_gt_cases q' q) as [L|L].
    + apply csum_zero_ext. intros p Hp. rewrite <- cip_conj. change (cip M (fun j => a j p) (fun j => E j q')) with (y q' p). rewrite Y0 by assumption. unfold Conj, C0. apply C_eq; cbn; ring.
    + specialize (Dep (q' - q - 1)%nat ltac:(lia)). replace (q + 1 + (q' - q - 1))%nat with q' in Dep by lia. exact Dep.
Qed.
(** a vector is orthogonal to the noise eigenvectors exactly if it is a combination of the sources *)
Lemma combination_orthogonal : forall u x, (forall i, (i < M)%nat -> u i = csum K (fun p => Cmul (x p) (a i p))) -> forall q, (q < M - K)%nat -> cip M (fun i => E i q) u = C0.
Proof.
  intros u x H q Hq. unfold cip. transitivity (csum K (fun p => Cmul (x p) (cip M (fun i => E i q) (fun i => a i p)))).
  - transitivity (csum M (fun i => csum K (fun p => Cmul (x p) (Cmul (Conj (E i q)) (a i p))))).
    + apply csum_ext. intros i Hi. rewrite H by assumption. rewrite <- csum_scal. apply csum_ext. intros p _. ring.
    + rewrite csum_swap. apply csum_ext. intros p _. now rewrite csum_scal.
  - apply csum_zero_ext. intros p Hp. rewrite <- cip_conj. change (cip M (fun j => a j p) (fun j => E j q)) with (y q p). rewrite noise_orthogonal by assumption. unfold Conj, C0. apply C_eq; cbn; ring.
Qed.
Lemma orthogonal_combination : independent -> forall u, (forall q, (q < M - K)%nat -> cip M (fun i => E i q) u = C0) -> exists x, forall i, (i < M)%nat -> u i = csum K (fun p => Cmul (x p) (a i p)).
Proof.
  intros Ind u H. exists (fun p => csum M (fun q => if (q <? M - K)%nat then C0 else Cmul (RtoC (/ mu q)) (Cmul (c q p) (cip M (fun i => E i q) u)))). intros i Hi.
  destruct Heig as (_ & Cp & _ & _). rewrite <- (expand M E u i Cp Hi) at 1.
  transitivity (csum M (fun q => csum K (fun p => Cmul (if (q <? M - K)%nat then C0 else Cmul (RtoC (/ mu q)) (Cmul (c q p) (cip M (fun i => E i q) u))) (a i p)))).
  - apply csum_ext. intros q Hq. destruct (Nat.ltb_spec q (M - K)) as [L|L].
    + rewrite H by assumption. rewrite csum_zero_ext; [ring|]. intros. ring.
    + pose proof (signal_positive Ind q L Hq) as Pq. transitivity (Cmul (Cmul (RtoC (/ mu q)) (Cmul (RtoC (mu q)) (E i q))) (cip M (fun j => E j q) u)).
      * replace (Cmul (RtoC (/ mu q)) (Cmul (RtoC (mu q)) (E i q))) with (E i q); [reflexivity|]. transitivity (Cmul (RtoC (/ mu q * mu q)) (E i q)); [|rewrite RtoC_mul; ring]. rewrite Rinv_l by lra. unfold RtoC. apply C_eq; cbn; ring.
      * rewrite range_eq by assumption. rewrite <- csum_scal, <- csum_scal_r. apply csum_ext. intros p _. ring.
  - rewrite csum_swap. apply csum_ext. intros p _. now rewrite csum_scal_r.
Qed.
End Sources.

(** ** The spectrum: one over the power of the mode vector in the noise subspace, at least 1/M *)
Theorem C102_spectrum : forall u M S num_src X w e k n, is_eigh M (covariance S X k) w (e k) -> (1 <= num_src)%nat ->
  let power := bsum (M - num_src) (fun q => Cabs2 (cip M (fun i => e k i q) (fun i => mode_of u k i n))) in
  (power = 0 /\ pseudo M num_src (mode_of u) e k n = None) \/ (0 < power <= INR M /\ pseudo M num_src (mode_of u) e k n = Some (/ power)).
Proof.
  intros u M S num_src X w e k n (On & Cp & _ & _) Hs power. rewrite (pseudo_eq M num_src (mode_of u) e k Cp). cbv zeta.
  assert (Nn : n_noise M num_src = (M - num_src)%nat) by (unfold n_noise; destruct (Nat.eqb_spec num_src 0); [lia|reflexivity]). rewrite Nn. fold power.
  assert (P0 : 0 <= power) by (apply bsum_nonneg; intros; apply Cabs2_nonneg).
  destruct (Req_EM_T power 0) as [Z|Z]; [left; auto|right]. split; [|reflexivity]. split; [lra|].
  assert (T : bsum M (fun q => Cabs2 (cip M (fun i => e k i q) (fun i => mode_of u k i n))) = INR M).
  { assert (Q : RtoC (bsum M (fun q => Cabs2 (cip M (fun i => e k i q) (fun i => mode_of u k i n)))) = RtoC (INR M)); [|now injection Q].
    rewrite <- csum_RtoC. transitivity (cip M (fun i => mode_of u k i n) (fun i => mode_of u k i n)).
    - transitivity (csum M (fun i => Cmul (Conj (mode_of u k i n)) (csum M (fun q => Cmul (e k i q) (cip M (fun j => e k j q) (fun j => mode_of u k j n)))))).
      + transitivity (csum M (fun q => csum M (fun i => Cmul (Conj (mode_of u k i n)) (Cmul (e k i q) (cip M (fun j => e k j q) (fun j => mode_of u k j n)))))).
        * apply csum_ext. intros q _. rewrite <- Cmul_conj, cip_conj. rewrite (csum_ext M _ (fun i => Cmul (cip M (fun j => e k j q) (fun j => mode_of u k j n)) (Cmul (Conj (mode_of u k i n)) (e k i q)))) by (intros; ring). now rewrite csum_scal.
        * rewrite csum_swap. apply csum_ext. intros i _. now rewrite csum_scal.
      + unfold cip at 2. apply csum_ext. intros i Hi. f_equal. exact (expand M (e k) (fun j => mode_of u k j n) i Cp Hi).
    - rewrite cip_self. f_equal. rewrite (bsum_ext M _ (fun _ => 1)) by (intros; apply mode_unit). rewrite bsum_const. ring. }
  rewrite <- T. pose proof (bsum_split (M - num_src) (M - (M - num_src)) (fun q => Cabs2 (cip M (fun i => e k i q) (fun i => mode_of u k i n)))) as Sp. replace (M - num_src + (M - (M - num_src)))%nat with M in Sp at 1 by lia. fold power in Sp. rewrite Sp.
  assert (0 <= bsum (M - (M - num_src)) (fun i => Cabs2 (cip M (fun i0 => e k i0 (M - num_src + i)%nat) (fun i0 => mode_of u k i0 n)))) by (apply bsum_nonneg; intros; apply Cabs2_nonneg). lra.
Qed.
(** ** Sources on the grid *)
(** at frequency [k] the signals have the covariance of sources at the grid points [d 0], ..., [d (K-1)] with independent
    mode vectors, not fully correlated with one another, in white noise of any power *)
Definition sources_at (u : mode_vector) (M S K : nat) (X : nat -> nat -> nat -> C) (d : nat -> nat) (k : nat) : Prop :=
  exists P sigma2, source_covariance M K (covariance S X k) (fun i p => mode_of u k i (d p)) P sigma2 /\ positive_definite K P.
Definition independent_at (u : mode_vector) (M K : nat) (d : nat -> nat) (k : nat) : Prop := independent M K (fun i p => mode_of u k i (d p)).
(** the mode vector of grid point [n] is a combination of those of the sources *)
Definition ambiguous (u : mode_vector) (M K : nat) (d : nat -> nat) (k n : nat) : Prop :=
  exists x, forall i, (i < M)%nat -> mode_of u k i n = csum K (fun p => Cmul (x p) (mode_of u k i (d p))).
(** The spectrum is infinite at every source and, for independent mode vectors, at no other unambiguous grid point. *)
Theorem C102_sources : forall u M S K X w e d k n, is_eigh M (covariance S X k) w (e k) -> (1 <= K)%nat -> sources_at u M S K X d k ->
  (forall p, (p < K)%nat -> pseudo M K (mode_of u) e k (d p) = None) /\
  (ambiguous u M K d k n -> pseudo M K (mode_of u) e k n = None) /\
  (independent_at u M K d k -> pseudo M K (mode_of u) e k n = None -> ambiguous u M K d k n).
Proof.
  intros u M S K X w e d k n He HK (P & sigma2 & Hcov & Hpd). pose proof He as (_ & Cp & _ & _).
  assert (Nn : n_noise M K = (M - K)%nat) by (unfold n_noise; destruct (Nat.eqb_spec K 0); [lia|reflexivity]).
  assert (Amb : forall n, ambiguous u M K d k n -> pseudo M K (mode_of u) e k n = None).
  { intros n' (x & Hx). apply (pseudo_none M K (mode_of u) e k Cp). rewrite Nn. exact (combination_orthogonal M K _ _ P sigma2 w (e k) Hcov Hpd He _ x Hx). }
  split; [|split; [apply Amb|]].
  - intros p Hp. apply Amb. exists (fun q => delta p q). intros i Hi. rewrite (csum_delta K p); [unfold delta; rewrite Nat.eqb_refl; ring|assumption|]. intros q Hq Hne. unfold delta. destruct (Nat.eqb_spec p q); [lia|ring].
  - intros Ind H. pose proof (proj1 (pseudo_none M K (mode_of u) e k Cp n) H) as H0. rewrite Nn in H0. exact (orthogonal_combination M K _ _ P sigma2 w (e k) Hcov Hpd He Ind _ H0).
Qed.
Lemma fold_inf : forall l, fold_right inf_add (Some 0) l = None <-> In None l.
Proof.
  induction l as [|o l IH]; [split; [discriminate|intros []]|]. cbn [fold_right In]. rewrite <- IH. destruct o as [x|]; [|split; [now left|reflexivity]].
  destruct (fold_right inf_add (Some 0) l); cbn; split; intros H; try discriminate; [destruct H; discriminate|now right|reflexivity].
Qed.
(** The mean over the frequencies is infinite at a source as soon as one frequency has the covariance above, and finite
    at every point that is unambiguous at all frequencies. *)
Theorem C102_value : forall u M S K X w e d bins, (1 <= K)%nat -> (forall k, In k bins -> is_eigh M (covariance S X k) (w k) (e k) /\ sources_at u M S K X d k /\ independent_at u M K d k) ->
  (forall p, bins <> [] -> (p < K)%nat -> music_value M K bins (mode_of u) e (d p) = None) /\
  (forall n, (forall k, In k bins -> ~ ambiguous u M K d k n) -> exists r, music_value M K bins (mode_of u) e n = Some r /\ (bins <> [] -> / INR M <= r)).
Proof.
  intros u M S K X w e d bins HK Hb. split.
  - intros p Hne Hp. unfold music_value. replace (fold_right inf_add _ _) with (@None R); [reflexivity|]. symmetry. apply fold_inf. destruct bins as [|k bins]; [congruence|]. destruct (Hb k (or_introl eq_refl)) as (He & Hs & _).
    left. exact (proj1 (C102_sources u M S K X (w k) e d k 0%nat He HK Hs) p Hp).
  - intros n Hn. unfold music_value.
    assert (Pn : forall k, In k bins -> exists r, pseudo M K (mode_of u) e k n = Some r /\ / INR M <= r).
    { intros k Hk. destruct (Hb k Hk) as (He & Hs & Hi). destruct (C102_spectrum u M S K X (w k) e k n He HK) as [[_ Q]|[B Q]].
      - exfalso. apply (Hn k Hk). destruct (C102_sources u M S K X (w k) e d k n He HK Hs) as (_ & _ & T). exact (T Hi Q).
      - eexists. split; [exact Q|]. apply Rinv_le_contravar; apply B. }
    clear Hb Hn. assert (T : exists r, fold_right inf_add (Some 0) (map (fun k => pseudo M K (mode_of u) e k n) bins) = Some r /\ INR (length bins) * / INR M <= r).
    { induction bins as [|k bins IH]; [exists 0; split; [reflexivity|cbn; lra]|]. destruct (Pn k (or_introl eq_refl)) as (r & E1 & B1). destruct (IH (fun k Hk => Pn k (or_intror Hk))) as (r2 & E2 & B2). exists (r + r2). cbn [map fold_right]. rewrite E1, E2. split; [reflexivity|]. cbn [length]. rewrite S_INR. lra. }
    destruct T as (r & E & B). exists (r / INR (length bins)). rewrite E. split; [reflexivity|]. intros Hne. assert (0 < INR (length bins)) by (apply lt_0_INR; destruct bins; [congruence|cbn; lia]).
    apply (Rmult_le_reg_r (INR (length bins))); [assumption|]. unfold Rdiv. rewrite Rmult_assoc, Rinv_l by lra. lra.
Qed.

(** ** Normalised over the grid at each frequency: values in (0, 1], 1 exactly where every frequency has its maximum *)
Lemma max_spec : forall l, (forall x, In x l -> 0 < x) -> (forall x, In x l -> x <= fold_right Rmax 0 l) /\ (l <> [] -> 0 < fold_right Rmax 0 l).
Proof.
  induction l as [|x l IH]; intros H; [split; [intros x []|congruence]|]. destruct IH as [I1 I2]; [intros; apply H; now right|]. cbn [fold_right]. pose proof (H x (or_introl eq_refl)). split.
  - intros z [<-|Hz]; [apply Rmax_l|]. eapply Rle_trans; [apply I1, Hz|apply Rmax_r].
  - intros _. eapply Rlt_le_trans; [eassumption|apply Rmax_l].
Qed.
Lemma max_attained : forall l m, (forall x, In x l -> x <= m) -> In m l -> 0 <= m -> fold_right Rmax 0 l = m.
Proof.
  intros l m H I Hm. apply Rle_antisym.
  - induction l as [|x l IH]; [cbn; lra|]. cbn [fold_right]. apply Rmax_lub; [apply H; now left|]. clear I IH. induction l as [|z l IH]; cbn [fold_right]; [lra|]. apply Rmax_lub; [apply H; right; now left|]. apply IH. intros y [->|Hy]; apply H; [now left|right; now right].
  - induction l as [|x l IH]; [destruct I|]. cbn [fold_right]. destruct I as [->|I]; [apply Rmax_l|]. eapply Rle_trans; [apply IH; [intros; apply H; now right|exact I]|apply Rmax_r].
Qed.
Theorem C102_normalised : forall u M S N K X w e bins vs, (1 <= K)%nat -> (forall k, In k bins -> is_eigh M (covariance S X k) (w k) (e k)) ->
  norm_music M N K bins (mode_of u) e = Some vs -> bins <> [] ->
  length vs = N /\ forall n, (n < N)%nat -> 0 < nth n vs 0 <= 1 /\
  (nth n vs 0 = 1 <-> forall k n', In k bins -> (n' < N)%nat -> exists x y, pseudo M K (mode_of u) e k n' = Some x /\ pseudo M K (mode_of u) e k n = Some y /\ x <= y).
Proof.
  intros u M S N K X w e bins vs HK He H Hne. unfold norm_music in H. destruct (mapM (finite_pseudo M N K (mode_of u) e) bins) as [P|] eqn:HP; [|discriminate]. cbn [bind] in H.
  apply (f_equal (fun o => match o with Some x => x | None => vs end)) in H. cbv beta iota in H. subst vs. split; [now rewrite map_length, seq_length|]. intros n Hn. rewrite nth_map_seq by assumption. cbn [Nat.add].
  set (val k n := match pseudo M K (mode_of u) e k n with Some x => x | None => 0 end).
  assert (PV : forall k n, In k bins -> (n < N)%nat -> pseudo M K (mode_of u) e k n = Some (val k n) /\ 0 < val k n).
  { intros k n' Hk Hn'. assert (Q : exists row, finite_pseudo M N K (mode_of u) e k = Some row).
    { clear -HP Hk. revert P HP. induction bins as [|b bins IH]; intros P HP; [destruct Hk|]. cbn in HP. destruct (finite_pseudo M N K (mode_of u) e b) eqn:F; [|discriminate]. destruct Hk as [->|Hk]; [eauto|]. cbn in HP. destruct (mapM _ bins) eqn:G; [|discriminate]. exact (IH Hk _ eq_refl). }
    destruct Q as [row Q]. unfold finite_pseudo in Q. assert (R : exists x, pseudo M K (mode_of u) e k n' = Some x).
    { assert (I : In n' (seq 0 N)) by (apply in_seq; lia). clear -Q I. revert row Q I. induction (seq 0 N) as [|b l IH]; intros row Q I; [destruct I|]. cbn in Q. destruct (pseudo M K (mode_of u) e k b) eqn:F; [|discriminate]. destruct I as [->|I]; [eauto|]. cbn in Q. destruct (mapM _ l) eqn:G; [|discriminate]. exact (IH _ eq_refl I). }
    destruct R as [x R]. unfold val. rewrite R. split; [reflexivity|]. destruct (C102_spectrum u M S K X (w k) e k n' (He k Hk) HK) as [[_ B]|[B1 B2]]; [congruence|]. rewrite R in B2. injection B2 as ->. apply Rinv_0_lt_compat, B1. }
  assert (PE : P = map (fun k => map (val k) (seq 0 N)) bins).
  { rewrite (mapM_some _ (fun k => map (val k) (seq 0 N))) in HP; [congruence|]. intros k Hk. unfold finite_pseudo. apply mapM_some. intros n' Hn'. apply PV; [assumption|]. apply in_seq in Hn'. lia. }
  subst P. rewrite map_map. set (q k := nth n (map (val k) (seq 0 N)) 0 / fold_right Rmax 0 (map (val k) (seq 0 N))).
  assert (Hin : forall k x, In x (map (val k) (seq 0 N)) <-> exists n', (n' < N)%nat /\ x = val k n'). { intros k x. rewrite in_map_iff. split; [intros (n' & <- & I); apply in_seq in I; exists n'; split; [lia|reflexivity]|intros (n' & I & ->); exists n'; split; [reflexivity|apply in_seq; lia]]. }
  assert (Hmax : forall k, In k bins -> (forall n', (n' < N)%nat -> val k n' <= fold_right Rmax 0 (map (val k) (seq 0 N))) /\ 0 < fold_right Rmax 0 (map (val k) (seq 0 N))).
  { intros k Hk. destruct (max_spec (map (val k) (seq 0 N))) as [A B]; [intros x I; apply Hin in I; destruct I as (n' & I & ->); now apply PV|]. split; [intros n' I; apply A, Hin; eauto|]. apply B. intros Z. apply (f_equal (@length R)) in Z. rewrite map_length, seq_length in Z. cbn in Z. lia. }
  assert (Hq : forall k, In k bins -> 0 < q k <= 1 /\ (q k = 1 <-> forall n', (n' < N)%nat -> val k n' <= val k n)).
  { intros k Hk. unfold q. rewrite nth_map_seq by assumption. cbn [Nat.add]. destruct (Hmax k Hk) as [A B]. destruct (PV k n Hk Hn) as [_ V0]. set (m := fold_right Rmax 0 (map (val k) (seq 0 N))) in *. split; [split|].
    - now apply Rdiv_lt_0_compat.
    - apply (Rmult_le_reg_r m); [assumption|]. unfold Rdiv. rewrite Rmult_assoc, Rinv_l by lra. specialize (A n Hn). lra.
    - split; intros E.
      + assert (V : val k n = m). { apply (Rmult_eq_compat_r m) in E. unfold Rdiv in E. rewrite Rmult_assoc, Rinv_l in E by lra. lra. } rewrite V. exact A.
      + assert (V : m = val k n). { unfold m. apply max_attained; [intros x I; apply Hin in I; destruct I as (n' & I & ->); auto|apply Hin; eauto|lra]. } rewrite V. field. lra. }
  assert (L0 : 0 < INR (length bins)) by (apply lt_0_INR; destruct bins; [congruence|cbn; lia]).
  assert (Sm : 0 < Rsum (map q bins) <= INR (length bins) /\ (Rsum (map q bins) = INR (length bins) <-> forall k, In k bins -> q k = 1)).
  { assert (G : forall l, incl l bins -> (l <> [] -> 0 < Rsum (map q l)) /\ 0 <= Rsum (map q l) <= INR (length l) /\ (Rsum (map q l) = INR (length l) <-> forall k, In k l -> q k = 1)).
    { induction l as [|b l IH]; intros I; unfold Rsum in *; cbn [map fold_right length]; [split; [congruence|]; split; [cbn; lra|]; split; [intros _ k []|reflexivity]|]. rewrite S_INR. destruct IH as (_ & I2 & I3); [intros x Hx; apply I; now right|]. destruct (Hq b (I b (or_introl eq_refl))) as [[B1 B2] _]. split; [intros _; lra|]. split; [lra|]. split.
      - intros E k [->|Hk]; [lra|]. apply I3; [lra|assumption].
      - intros E. rewrite (E b) by now left. rewrite (proj2 I3) by (intros; apply E; now right). ring. }
    destruct (G bins (fun x H => H)) as (G1 & G2 & G3). split; [split; [now apply G1|apply G2]|exact G3]. }
  destruct Sm as [[S1 S2] S3]. split; [split|].
  - now apply Rdiv_lt_0_compat.
  - apply (Rmult_le_reg_r (INR (length bins))); [assumption|]. unfold Rdiv. rewrite Rmult_assoc, Rinv_l by lra. lra.
  - transitivity (Rsum (map q bins) = INR (length bins)).
    + change (Rsum (map q bins) / INR (length bins) = 1 <-> Rsum (map q bins) = INR (length bins)). split; intros E; [|rewrite E; field; lra]. apply (Rmult_eq_compat_r (INR (length bins))) in E. unfold Rdiv at 1 in E. rewrite Rmult_assoc, Rinv_l in E by lra. lra.
    + rewrite S3. split.
      * intros Q k n' Hk Hn'. destruct (PV k n' Hk Hn') as [E1 _]. destruct (PV k n Hk Hn) as [E2 _]. do 2 eexists. split; [exact E1|]. split; [exact E2|]. now apply (proj2 (Hq k Hk)); [apply Q|].
      * intros Q k Hk. apply Hq; [assumption|]. intros n' Hn'. destruct (Q k n' Hk Hn') as (x & y & E1 & E2 & Le). unfold val. rewrite E1, E2. exact Le.
Qed.
(** one source, from the second of the two directions of [ex_array], received by two microphones *)
Definition ex_X (m k s : nat) : C := C1.
Definition ex_w (q : nat) : R := match q with O => 0 | _ => 2 end.
Definition ex_e (k i q : nat) : C := RtoC (match i, q with S _, O => - / sqrt 2 | _, _ => / sqrt 2 end).
Lemma half : / sqrt 2 * / sqrt 2 = / 2.
Proof. rewrite <- Rinv_mult, sqrt_sqrt by lra. reflexivity. Qed.
Lemma ex_eigh : is_eigh 2 (covariance 1 ex_X 1) ex_w (ex_e 1).
Proof.
  pose proof half as H. set (r := / sqrt 2) in *. split; [|split; [|split]].
  - intros p q Hp Hq. unfold cip. destruct p as [|[|p]], q as [|[|q]]; try lia; apply C_eq; unfold csum, ex_e, delta; fold r; cbn; lra.
  - intros p q Hp Hq. destruct p as [|[|p]], q as [|[|q]]; try lia; apply C_eq; unfold csum, ex_e, delta; fold r; cbn; lra.
  - intros p q Hp Hq. destruct p as [|[|p]], q as [|[|q]]; try lia; apply C_eq; unfold csum, ex_e, covariance, csum, Cscal, Cmul, Conj, ex_X, ex_w, RtoC, C1; fold r; cbn [fst snd bsum INR]; rewrite ?Rinv_1; lra.
  - intros [|p] [|q] Hp Hq; cbn; try lia; lra.
Qed.
Lemma ex_mode : forall i, (i < 2)%nat -> mode_of ex_array 1 i 1 = C1 /\ mode_of ex_array 1 i 0 = match i with O => C1 | _ => (0, 1) end.
Proof. intros [|[|i]] Hi; try lia; unfold mode_of, table_at, tau_at, omega_at, ex_array; cbn [mv_tau mv_omega nth]; rewrite ?Rmult_0_r, ?Rmult_1_r, ?cis_0; split; try reflexivity. unfold cis. now rewrite cos_PI2, sin_PI2. Qed.
Lemma ex_sources : sources_at ex_array 2 1 1 ex_X (fun _ => 1%nat) 1 /\ independent_at ex_array 2 1 (fun _ => 1%nat) 1.
Proof.
  split.
  - exists (fun _ _ => C1), 0. split.
    + intros i j Hi Hj. cbv beta. unfold csum. cbn [bsum]. rewrite (proj1 (ex_mode i Hi)), (proj1 (ex_mode j Hj)). unfold covariance, csum. cbn [bsum INR]. rewrite Rinv_1. apply C_eq; cbn; ring.
    + intros x (p & Hp & Hx). assert (p = 0%nat) as -> by lia. unfold csum. cbn [bsum fst snd Cmul Conj C1]. pose proof (Cabs2_nonneg (x 0%nat)) as B. assert (Cabs2 (x 0%nat) <> 0) by (intros Z; apply Hx, Cabs2_zero, Z). unfold Cabs2 in *. lra.
  - intros x H p Hp. assert (p = 0%nat) as -> by lia. specialize (H 0%nat ltac:(lia)). cbv beta in H. unfold csum in H. cbn [bsum] in H. rewrite (proj1 (ex_mode 0%nat ltac:(lia))) in H. injection H as H1 H2. cbn in H1, H2. apply C_eq; cbn; lra.
Qed.
(** the other direction is not ambiguous *)
Lemma ex_unambiguous : ~ ambiguous ex_array 2 1 (fun _ => 1%nat) 1 0.
Proof.
  intros (x & H). pose proof (H 0%nat ltac:(lia)) as H0. pose proof (H 1%nat ltac:(lia)) as H1. cbv beta in H0, H1. unfold csum in H0, H1. cbn [bsum] in H0, H1.
  rewrite (proj1 (ex_mode 0%nat ltac:(lia))), (proj2 (ex_mode 0%nat ltac:(lia))) in H0. rewrite (proj1 (ex_mode 1%nat ltac:(lia))), (proj2 (ex_mode 1%nat ltac:(lia))) in H1. injection H0 as A B. injection H1 as A1 B1. cbn in *. lra.
Qed.
Example C102_ex : music_value 2 1 [1%nat] (mode_of ex_array) ex_e 1 = None /\ exists r, music_value 2 1 [1%nat] (mode_of ex_array) ex_e 0 = Some r.
Proof.
  destruct (C102_value ex_array 2 1 1 ex_X (fun _ => ex_w) ex_e (fun _ => 1%nat) [1%nat] (le_n 1)) as [A B].
  - intros k [<-|[]]. split; [exact ex_eigh|exact ex_sources].
  - split; [apply (A 0%nat); [discriminate|lia]|]. destruct (B 0%nat) as (r & E & _); [|eauto]. intros k [<-|[]]. exact ex_unambiguous.
Qed.
(** With the normalisation over frequencies (the default of NormMUSIC) an exact source on the grid makes the values of
    its frequency infinite over infinite, not a number. *)
Theorem C102_normalised_refuted : exists u M S N K X w e d bins, bins <> [] /\ (d < N)%nat /\ (forall k, In k bins -> is_eigh M (covariance S X k) (w k) (e k) /\ sources_at u M S K X (fun _ => d) k /\ independent_at u M K (fun _ => d) k) /\
  norm_music M N K bins (mode_of u) e = None.
Proof.
  exists ex_array, 2%nat, 1%nat, 2%nat, 1%nat, ex_X, (fun _ => ex_w), ex_e, 1%nat, [1%nat]. split; [discriminate|]. split; [lia|].
  assert (Q : forall k, In k [1%nat] -> is_eigh 2 (covariance 1 ex_X k) ex_w (ex_e k) /\ sources_at ex_array 2 1 1 ex_X (fun _ => 1%nat) k /\ independent_at ex_array 2 1 (fun _ => 1%nat) k) by (intros k [<-|[]]; split; [exact ex_eigh|exact ex_sources]).
  split; [exact Q|]. unfold norm_music. cbn [mapM]. unfold finite_pseudo. cbn [seq mapM].
  assert (Z : pseudo 2 1 (mode_of ex_array) ex_e 1 1 = None). { destruct (Q 1%nat (or_introl eq_refl)) as (He & Hs & _). exact (proj1 (C102_sources ex_array 2 1 1 ex_X ex_w ex_e (fun _ => 1%nat) 1 0%nat He (le_n 1) Hs) 0%nat ltac:(lia)). }
  rewrite Z. destruct (pseudo 2 1 (mode_of ex_array) ex_e 1 0); reflexivity.
Qed.
(** A frame without a peak leaves num_src = 0 behind (locate_sources stores the number of peaks found); with it the
    slice [-0:] takes all eigenvectors for the signal and the spectrum is infinite at every point. *)
Theorem C102_zero_refuted : exists v, length v = 3%nat /\ forall argsort, is_argsort argsort -> exists m,
  locate_sources (circle_find_peaks argsort v) 1 None = (m, []) /\
  forall u M S X w e k n, is_eigh M (covariance S X k) w (e k) -> pseudo M m (mode_of u) e k n = None.
Proof.
  exists [1; 1; 1]. split; [reflexivity|]. intros argsort Ha. exists 0%nat. split.
  - assert (Z : circle_find_peaks argsort [1; 1; 1] 1 = []).
    { destruct (C66_circle argsort [1; 1; 1] 1 Ha (le_n 1)) as (c & _ & Ic & (_ & I & _)). destruct (circle_find_peaks argsort [1; 1; 1] 1) as [|i r]; auto. specialize (I i ltac:(left; auto)). apply Ic in I. destruct I as (I0 & I1 & _). cbn in I0. do 3 (destruct i as [|i]; [cbn in *; lra|]). lia. }
    unfold locate_sources. rewrite Z. reflexivity.
  - intros u M S X w e k n (_ & Cp & _ & _). apply (pseudo_none M 0 (mode_of u) e k Cp). intros q Hq. unfold n_noise in Hq. cbn in Hq. lia.
Qed.
Print Assumptions C102_value.
Example C102_normalised_ex : exists vs, norm_music 2 1 1 [1%nat] (mode_of ex_array) ex_e = Some vs /\ nth 0 vs 0 = 1.
Proof.
  destruct ex_sources as [Hs Hi].
  destruct (C102_spectrum ex_array 2 1 1 ex_X ex_w ex_e 1 0 ex_eigh (le_n 1)) as [[_ Q]|[B Q]]; [exfalso; apply ex_unambiguous; destruct (C102_sources ex_array 2 1 1 ex_X ex_w ex_e (fun _ => 1%nat) 1 0 ex_eigh (le_n 1) Hs) as (_ & _ & T); auto|].
  set (p := bsum _ _) in *. assert (E : norm_music 2 1 1 [1%nat] (mode_of ex_array) ex_e = Some [Rsum [/ p / Rmax (/ p) 0] / INR 1]).
  { unfold norm_music, finite_pseudo. cbn [seq mapM]. rewrite Q. reflexivity. }
  eexists. split; [exact E|]. destruct (C102_normalised ex_array 2 1 1 1 ex_X (fun _ => ex_w) ex_e [1%nat] _ (le_n 1) ltac:(intros k [<-|[]]; exact ex_eigh) E ltac:(discriminate)) as [_ V]. apply V; [lia|]. intros k n' [<-|[]] Hn. assert (n' = 0%nat) as -> by lia. do 2 eexists. split; [exact Q|]. split; [exact Q|lra].
Qed.
