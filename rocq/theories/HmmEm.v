(** The expectation-maximisation step does not decrease the likelihood. *)
From Coq Require Import List ZArith Lia Reals Lra Bool.
From Verif Require Import Base Vec Sum StftProofs DenoiseModel WienerProofs HmmModel HmmSpec BaseProofs HmmProofs.
Import ListNotations.
Local Open Scope R_scope.

Lemma ln_le_sub1 : forall x, 0 < x -> ln x <= x - 1.
Proof. intros x Hx. pose proof (exp_ineq1_le (ln x)) as H. rewrite exp_ln in H by auto. lra. Qed.
Lemma Rsum_nonneg' : forall {Z} (f : Z -> R) l, (forall z, In z l -> 0 <= f z) -> 0 <= Rsum (map f l).
Proof. intros Z f l. induction l as [|a l IH]; intros G; [cbn; lra|]. cbn [map]. unfold Rsum in *. cbn [fold_right]. specialize (IH ltac:(intros; apply G; now right)). specialize (G a (or_introl eq_refl)). lra. Qed.
Lemma Rsum_le' : forall {Z} (f g : Z -> R) l, (forall z, In z l -> f z <= g z) -> Rsum (map f l) <= Rsum (map g l).
Proof. intros Z f g l. induction l as [|a l IH]; intros G; [cbn; lra|]. cbn [map]. unfold Rsum in *. cbn [fold_right]. specialize (IH ltac:(intros; apply G; now right)). specialize (G a (or_introl eq_refl)). lra. Qed.
Lemma Rsum_term : forall {Z} (f : Z -> R) l z, (forall z, In z l -> 0 <= f z) -> In z l -> f z <= Rsum (map f l).
Proof.
  intros Z f l z. induction l as [|a l IH]; intros G Hz; [contradiction|]. cbn [map]. unfold Rsum in *. cbn [fold_right]. pose proof (Rsum_nonneg' f l ltac:(intros; apply G; now right)) as H. unfold Rsum in H. destruct Hz as [->|Hz]; [lra|]. specialize (IH ltac:(intros; apply G; now right) Hz). specialize (G a (or_introl eq_refl)). lra.
Qed.
Lemma jensen : forall {Z} (l : list Z) (w w' : Z -> R), (forall z, In z l -> 0 <= w z /\ 0 <= w' z /\ (0 < w z -> 0 < w' z)) -> 0 < Rsum (map w l) ->
  Rsum (map (fun z => w z * (ln (w' z) - ln (w z))) l) <= Rsum (map w l) * (ln (Rsum (map w' l)) - ln (Rsum (map w l))) /\ 0 < Rsum (map w' l).
Proof.
  intros Z l w w' H HL. set (L := Rsum (map w l)) in *. set (L' := Rsum (map w' l)). set (N := Rsum (map (fun z => w z * (ln (w' z) - ln (w z))) l)). set (D := N / L).
  assert (B : exp D * L <= L').
  { unfold L'. apply Rle_trans with (Rsum (map (fun z => exp D * (w z * (1 - D)) + exp D * (w z * (ln (w' z) - ln (w z)))) l)).
    - rewrite Rsum_map_plus, !Rsum_map_scal. rewrite (Rsum_map_ext (fun z => w z * (1 - D)) (fun z => (1 - D) * w z)) by (intros; ring). rewrite Rsum_map_scal. fold L N. assert (N = D * L) by (unfold D; field; lra). apply Req_le. rewrite H0. ring.
    - apply Rsum_le'. intros z Hz. destruct (H z Hz) as (W & W' & P). destruct (Req_dec (w z) 0) as [Z0|Z0]; [rewrite Z0; lra|]. assert (Wp : 0 < w z) by lra. specialize (P Wp). set (y := ln (w' z) - ln (w z)). assert (E : w' z = w z * exp y) by (unfold y, Rminus; rewrite exp_plus, exp_Ropp, !exp_ln by auto; field; lra).
      pose proof (exp_ineq1_le (y - D)) as I. replace y with (D + (y - D)) in E by ring. rewrite exp_plus in E. rewrite E. pose proof (exp_pos D) as Ep. replace (exp D * (w z * (1 - D)) + exp D * (w z * y)) with (w z * exp D * (1 + (y - D))) by ring. rewrite <- Rmult_assoc. apply Rmult_le_compat_l; [apply Rlt_le, Rmult_lt_0_compat; auto|exact I]. }
  assert (P' : 0 < L') by (apply Rlt_le_trans with (exp D * L); [apply Rmult_lt_0_compat; [apply exp_pos|exact HL]|exact B]). split; [|exact P'].
  assert (ln (exp D * L) <= ln L') by (destruct B as [B|B]; [left; apply ln_increasing; [apply Rmult_lt_0_compat; [apply exp_pos|exact HL]|exact B]|rewrite B; lra]). rewrite ln_mult, ln_exp in H0 by (auto; apply exp_pos).
  replace N with (L * D) by (unfold D; field; lra). apply Rmult_le_compat_l; lra.
Qed.
Lemma gibbs : forall K (G p : nat -> R), (forall k, (k < K)%nat -> 0 <= G k /\ 0 <= p k /\ (0 < G k -> 0 < p k)) -> bsum K p <= 1 -> 0 < bsum K G ->
  0 <= bsum K (fun k => G k * (ln (G k / bsum K G) - ln (p k))).
Proof.
  intros K G p H Hp HS. set (T := bsum K G) in *. assert (B : bsum K (fun k => G k - T * p k) <= bsum K (fun k => G k * (ln (G k / T) - ln (p k)))).
  { apply bsum_le. intros k Hk. destruct (H k Hk) as (G0 & P0 & P). destruct (Req_dec (G k) 0) as [Z|Z]; [rewrite Z; pose proof (Rmult_le_pos T (p k) ltac:(lra) P0); lra|]. assert (Gp : 0 < G k) by lra. specialize (P Gp).
    pose proof (ln_le_sub1 (p k * (T / G k)) ltac:(apply Rmult_lt_0_compat; [auto|apply Rdiv_lt_0_compat; auto])) as I. rewrite ln_mult in I by (auto; apply Rdiv_lt_0_compat; auto). unfold Rdiv in *. rewrite ln_mult in I |- * by (auto; apply Rinv_0_lt_compat; auto). rewrite ln_Rinv in I |- * by auto.
    replace (G k - T * p k) with (- (G k * (p k * (T * / G k) - 1))) by (field; lra). rewrite <- Ropp_mult_distr_r_reverse. apply Rmult_le_compat_l; lra. }
  rewrite bsum_minus, bsum_scal in B. fold T in B. assert (T * bsum K p <= T * 1) by (apply Rmult_le_compat_l; lra). lra.
Qed.

(** ** Logarithm of the probability of a path *)
Section Path.
Variable K : nat.
Definition lnA (A : nat -> nat -> R) (z : list nat) (n : nat) : R := ln (A (nth n z 0%nat) (nth (S n) z 0%nat)).
Notation nonneg_all := (nonneg_all K).
Lemma nonneg_cons : forall p ps, nonneg_all (p :: ps) -> (forall k, (k < K)%nat -> 0 <= p k) /\ nonneg_all ps.
Proof. intros p ps H. split; [intros k Hk; apply (H 0%nat k); cbn; auto; lia|]. intros n k Hn Hk. apply (H (S n) k); cbn; auto; lia. Qed.
Lemma pos3 : forall a b c, 0 <= a -> 0 <= b -> 0 <= c -> 0 < a * b * c -> 0 < a /\ 0 < b /\ 0 < c.
Proof.
  intros a b c Ha Hb Hc H. destruct Ha as [Ha|Ha], Hb as [Hb|Hb], Hc as [Hc|Hc]; subst; repeat split; auto; exfalso; revert H; rewrite ?Rmult_0_r, ?Rmult_0_l, ?Rmult_0_r; lra.
Qed.
Lemma chain_nonneg : forall A ps i z, (forall i j, (i < K)%nat -> (j < K)%nat -> 0 <= A i j) -> nonneg_all ps -> (i < K)%nat -> Forall (fun k => (k < K)%nat) z -> 0 <= chain A i ps z.
Proof.
  intros A ps. induction ps as [|p ps IH]; intros i z HA Hp Hi F; destruct z as [|j z]; cbn [chain]; try lra. inversion F; subst. destruct (nonneg_cons _ _ Hp) as [P0 P1]. repeat apply Rmult_le_pos; auto.
Qed.
Lemma chain_pos : forall A ps i z, (forall i j, (i < K)%nat -> (j < K)%nat -> 0 <= A i j) -> nonneg_all ps -> (i < K)%nat -> Forall (fun k => (k < K)%nat) z -> length z = length ps ->
  (0 < chain A i ps z <-> forall n, (n < length ps)%nat -> 0 < A (nth n (i :: z) 0%nat) (nth n z 0%nat) /\ 0 < nth n ps (fun _ => 0) (nth n z 0%nat)).
Proof.
  intros A ps. induction ps as [|p ps IH]; intros i z HA Hp Hi F L; destruct z as [|j z]; try discriminate; cbn [chain].
  - split; [intros _ n Hn; cbn in Hn; lia|lra].
  - inversion F; subst. destruct (nonneg_cons _ _ Hp) as [P0 P1]. specialize (IH j z HA P1 ltac:(auto) ltac:(auto) ltac:(cbn in L; lia)). split.
    + intros H. destruct (pos3 (A i j) (p j) (chain A j ps z) ltac:(auto) ltac:(auto) ltac:(apply chain_nonneg; auto) H) as (Q1 & Q2 & Q3). rewrite IH in Q3. intros [|n] Hn; [cbn; auto|]. cbn [length] in Hn. apply (Q3 n). lia.
    + intros H. destruct (H 0%nat ltac:(cbn; lia)) as [Q1 Q2]. repeat apply Rmult_lt_0_compat; auto. apply IH. intros n Hn. apply (H (S n)). cbn. lia.
Qed.
Lemma ln_chain : forall A ps i z, (forall i j, (i < K)%nat -> (j < K)%nat -> 0 <= A i j) -> nonneg_all ps -> (i < K)%nat -> Forall (fun k => (k < K)%nat) z -> length z = length ps -> 0 < chain A i ps z ->
  ln (chain A i ps z) = bsum (length ps) (fun n => lnA A (i :: z) n + ln (nth n ps (fun _ => 0) (nth n z 0%nat))).
Proof.
  intros A ps. induction ps as [|p ps IH]; intros i z HA Hp Hi F L H; destruct z as [|j z]; try discriminate; cbn [chain] in *.
  - cbn [length bsum]. apply ln_1.
  - inversion F; subst. destruct (nonneg_cons _ _ Hp) as [P0 P1]. destruct (pos3 (A i j) (p j) (chain A j ps z) ltac:(auto) ltac:(auto) ltac:(apply chain_nonneg; auto) H) as (Q1 & Q2 & Q3). rewrite !ln_mult by (auto; apply Rmult_lt_0_compat; auto). cbn [length]. rewrite bsum_shift, (IH j z HA P1) by (auto; cbn in L; lia). unfold lnA. cbn [nth]. reflexivity.
Qed.
Lemma joint_nonneg : forall A pi ps z, (forall i j, (i < K)%nat -> (j < K)%nat -> 0 <= A i j) -> (forall k, (k < K)%nat -> 0 <= pi k) -> nonneg_all ps -> Forall (fun k => (k < K)%nat) z -> 0 <= joint A pi ps z.
Proof. intros A pi ps z HA Hpi Hp F. destruct ps as [|p ps], z as [|k z]; cbn [joint]; try lra. inversion F; subst. destruct (nonneg_cons _ _ Hp) as [P0 P1]. repeat apply Rmult_le_pos; auto. apply chain_nonneg; auto. Qed.
Lemma joint_pos : forall A pi ps z, (forall i j, (i < K)%nat -> (j < K)%nat -> 0 <= A i j) -> (forall k, (k < K)%nat -> 0 <= pi k) -> nonneg_all ps -> Forall (fun k => (k < K)%nat) z -> length z = length ps -> ps <> [] ->
  (0 < joint A pi ps z <-> 0 < pi (nth 0 z 0%nat) /\ (forall n, (n < length ps)%nat -> 0 < nth n ps (fun _ => 0) (nth n z 0%nat)) /\ forall n, (n + 1 < length ps)%nat -> 0 < A (nth n z 0%nat) (nth (S n) z 0%nat)).
Proof.
  intros A pi ps z HA Hpi Hp F L Hne. destruct ps as [|p ps], z as [|k z]; try discriminate; [congruence|]. cbn [joint]. inversion F; subst. destruct (nonneg_cons _ _ Hp) as [P0 P1]. cbn [length] in L. pose proof (chain_pos A ps k z HA P1 ltac:(auto) ltac:(auto) ltac:(lia)) as CP. split.
  - intros H. destruct (pos3 (pi k) (p k) (chain A k ps z) ltac:(auto) ltac:(auto) ltac:(apply chain_nonneg; auto) H) as (Q1 & Q2 & Q3). rewrite CP in Q3. split; [exact Q1|]. split; [intros [|n] Hn; [exact Q2|]; cbn [length nth] in *; apply (Q3 n); lia|]. intros n Hn. cbn [length] in Hn. apply (Q3 n). lia.
  - intros (Q1 & Q2 & Q3). apply Rmult_lt_0_compat; [apply Rmult_lt_0_compat; [exact Q1|apply (Q2 0%nat); cbn; lia]|]. apply CP. intros n Hn. split; [apply (Q3 n); cbn; lia|apply (Q2 (S n)); cbn; lia].
Qed.
Lemma ln_joint : forall A pi ps z, (forall i j, (i < K)%nat -> (j < K)%nat -> 0 <= A i j) -> (forall k, (k < K)%nat -> 0 <= pi k) -> nonneg_all ps -> Forall (fun k => (k < K)%nat) z -> length z = length ps -> 0 < joint A pi ps z ->
  ln (joint A pi ps z) = ln (pi (nth 0 z 0%nat)) + bsum (length ps - 1) (lnA A z) + bsum (length ps) (fun n => ln (nth n ps (fun _ => 0) (nth n z 0%nat))).
Proof.
  intros A pi ps z HA Hpi Hp F L H. destruct ps as [|p ps], z as [|k z]; try discriminate; [cbn in H; lra|]. cbn [joint] in *. inversion F; subst. destruct (nonneg_cons _ _ Hp) as [P0 P1]. cbn [length] in L.
  destruct (pos3 (pi k) (p k) (chain A k ps z) ltac:(auto) ltac:(auto) ltac:(apply chain_nonneg; auto) H) as (Q1 & Q2 & Q3). rewrite !ln_mult by (auto; apply Rmult_lt_0_compat; auto). rewrite ln_chain by (auto; lia). rewrite bsum_plus. cbn [length]. rewrite bsum_shift. replace (S (length ps) - 1)%nat with (length ps) by lia. cbn [nth]. ring.
Qed.
(** Functions of states as sums over states. *)
Lemma at_value : forall n z (f : nat -> R), (n < length z)%nat -> Forall (fun k => (k < K)%nat) z -> f (nth n z 0%nat) = bsum K (fun k => ind (at_time n k z) * f k).
Proof.
  intros n z f Hn F. assert (Hk : (nth n z 0 < K)%nat) by (rewrite Forall_forall in F; apply F, nth_In; exact Hn). unfold at_time. rewrite (nth_error_nth' z 0%nat Hn). rewrite (bsum_delta K (nth n z 0%nat)); [rewrite Nat.eqb_refl; cbn [ind]; ring|exact Hk|]. intros i _ Hne. destruct (Nat.eqb_spec (nth n z 0%nat) i); [congruence|]. cbn [ind]. ring.
Qed.
Lemma pair_value : forall n z (f : nat -> nat -> R), (S n < length z)%nat -> Forall (fun k => (k < K)%nat) z -> f (nth n z 0%nat) (nth (S n) z 0%nat) = bsum K (fun i => bsum K (fun j => ind (at_time n i z && at_time (n + 1) j z) * f i j)).
Proof.
  intros n z f Hn F. rewrite (at_value n z (fun i => f i (nth (S n) z 0%nat))) by (auto; lia). apply bsum_ext. intros i _. rewrite (at_value (S n) z (f i)) by (auto; lia). rewrite <- bsum_scal. apply bsum_ext. intros j _. rewrite Nat.add_1_r. destruct (at_time n i z), (at_time (S n) j z); cbn [andb ind]; ring.
Qed.
End Path.

(** ** One example *)
Definition g_at (e : posterior) (n k : nat) : R := nth n (po_gamma e) (fun _ => 0) k.
Definition x_at (e : posterior) (n i j : nat) : R := nth n (po_xi e) (fun _ _ => 0) i j.
Lemma evidence_and_ssum : forall K A pi ps e, evidence_and K A pi ps e = ssum K (length ps) (fun z => joint A pi ps z * ind (e z)).
Proof. intros. unfold evidence_and. apply filter_sum. Qed.
Section Example.
Variables m m' : hmm.
Notation K := (hm_K m).
Hypothesis KK : hm_K m' = K.
Hypothesis A0 : forall i j, (i < K)%nat -> (j < K)%nat -> 0 <= hm_A m i j.
Hypothesis P0 : forall k, (k < K)%nat -> 0 <= hm_pi m k.
Hypothesis A1 : forall i j, (i < K)%nat -> (j < K)%nat -> 0 <= hm_A m' i j.
Hypothesis P1 : forall k, (k < K)%nat -> 0 <= hm_pi m' k.
Variables ps ps' : list (nat -> R).
Hypothesis LL : length ps' = length ps.
Hypothesis N0 : nonneg_all K ps.
Hypothesis N1 : nonneg_all K ps'.
Variable e : posterior.
Hypothesis E : e_step m ps = Some e.
Notation ev := (evidence K (hm_A m) (hm_pi m) ps).

Lemma ev_pos : 0 < ev.
Proof.
  destruct (e_step_spec _ _ _ E) as (_ & Hev & _). assert (0 <= ev). { unfold evidence. apply Rsum_nonneg'. intros z Hz. apply in_seqs in Hz. apply (joint_nonneg K); auto. apply Hz. } lra.
Qed.
Lemma and_le : forall ev1 z, length z = length ps -> Forall (fun k => (k < K)%nat) z -> ev1 z = true -> joint (hm_A m) (hm_pi m) ps z <= evidence_and K (hm_A m) (hm_pi m) ps ev1.
Proof.
  intros ev1 z L F Hz. unfold evidence_and. apply Rsum_term; [intros y Hy; apply filter_In in Hy; destruct Hy as [Hy _]; apply in_seqs in Hy; apply (joint_nonneg K); auto; apply Hy|]. apply filter_In. split; [apply in_seqs; auto|exact Hz].
Qed.
Lemma and_nonneg : forall ev1, 0 <= evidence_and K (hm_A m) (hm_pi m) ps ev1.
Proof. intros ev1. unfold evidence_and. apply Rsum_nonneg'. intros y Hy. apply filter_In in Hy. destruct Hy as [Hy _]. apply in_seqs in Hy. apply (joint_nonneg K); auto. apply Hy. Qed.
Lemma g_spec : forall n k, (n < length ps)%nat -> (k < K)%nat -> g_at e n k = evidence_and K (hm_A m) (hm_pi m) ps (at_time n k) / ev.
Proof. apply (e_step_spec _ _ _ E). Qed.
Lemma x_spec : forall n i j, (n + 1 < length ps)%nat -> (i < K)%nat -> (j < K)%nat -> x_at e n i j = evidence_and K (hm_A m) (hm_pi m) ps (fun z => at_time n i z && at_time (n + 1) j z) / ev.
Proof. apply (e_step_spec _ _ _ E). Qed.
Lemma g_nonneg : forall n k, (n < length ps)%nat -> (k < K)%nat -> 0 <= g_at e n k.
Proof. intros n k Hn Hk. rewrite g_spec by auto. apply Rmult_le_pos; [apply and_nonneg|left; apply Rinv_0_lt_compat, ev_pos]. Qed.
Lemma x_nonneg : forall n i j, (n + 1 < length ps)%nat -> (i < K)%nat -> (j < K)%nat -> 0 <= x_at e n i j.
Proof. intros n i j Hn Hi Hj. rewrite x_spec by auto. apply Rmult_le_pos; [apply and_nonneg|left; apply Rinv_0_lt_compat, ev_pos]. Qed.

Hypothesis Gpi : forall k, (k < K)%nat -> 0 < g_at e 0 k -> 0 < hm_pi m' k.
Hypothesis GA : forall n i j, (n + 1 < length ps)%nat -> (i < K)%nat -> (j < K)%nat -> 0 < x_at e n i j -> 0 < hm_A m' i j.
Hypothesis Gp : forall n k, (n < length ps)%nat -> (k < K)%nat -> 0 < g_at e n k -> 0 < nth n ps' (fun _ => 0) k.

Lemma example_gain :
  bsum K (fun k => g_at e 0 k * (ln (hm_pi m' k) - ln (hm_pi m k))) +
  bsum (length ps - 1) (fun n => bsum K (fun i => bsum K (fun j => x_at e n i j * (ln (hm_A m' i j) - ln (hm_A m i j))))) +
  bsum (length ps) (fun n => bsum K (fun k => g_at e n k * (ln (nth n ps' (fun _ => 0) k) - ln (nth n ps (fun _ => 0) k))))
  <= ln (evidence K (hm_A m') (hm_pi m') ps') - ln ev /\ 0 < evidence K (hm_A m') (hm_pi m') ps'.
Proof.
  destruct (e_step_spec _ _ _ E) as (Hne & _). pose proof g_spec as G. pose proof x_spec as X. pose proof ev_pos as Hp. assert (LP : (0 < length ps)%nat) by (destruct ps; [congruence|cbn; lia]).
  set (w := joint (hm_A m) (hm_pi m) ps) in *. set (w' := joint (hm_A m') (hm_pi m') ps').
  assert (W : forall z, length z = length ps -> Forall (fun k => (k < K)%nat) z -> 0 < w z -> 0 < w' z).
  { intros z L F Hw. unfold w'. apply (joint_pos K); auto; [lia|destruct ps'; [cbn in LL; lia|discriminate]|]. assert (Q : forall ev1, ev1 z = true -> 0 < evidence_and K (hm_A m) (hm_pi m) ps ev1 / ev) by (intros ev1 H1; apply Rdiv_lt_0_compat; [|exact Hp]; apply Rlt_le_trans with (w z); [exact Hw|apply and_le; auto]).
    assert (Hat : forall n, (n < length ps)%nat -> at_time n (nth n z 0%nat) z = true) by (intros n Hn; unfold at_time; rewrite (nth_error_nth' z 0%nat) by lia; apply Nat.eqb_refl). assert (Hk : forall n, (n < length ps)%nat -> (nth n z 0 < K)%nat) by (intros n Hn; rewrite Forall_forall in F; apply F, nth_In; lia).
    split; [apply Gpi; [apply Hk; lia|rewrite G by auto; apply Q, Hat; lia]|]. split; [intros n Hn; rewrite LL in Hn; apply Gp; auto; rewrite G by auto; apply Q, Hat; lia|]. intros n Hn. rewrite LL in Hn. apply (GA n); auto; try (apply Hk; lia). rewrite X by (auto; apply Hk; lia). apply Q. rewrite Hat by lia. rewrite Nat.add_1_r. rewrite Hat by lia. reflexivity. }
  destruct (jensen (seqs K (length ps)) w w') as [J J']; [|exact Hp|].
  { intros z Hz. apply in_seqs in Hz. destruct Hz as [L F]. split; [apply (joint_nonneg K); auto|]. split; [apply (joint_nonneg K); auto|]. now apply W. }
  assert (EV' : evidence K (hm_A m') (hm_pi m') ps' = Rsum (map w' (seqs K (length ps)))) by (unfold evidence; now rewrite LL). rewrite EV'. split; [|exact J'].
  set (q := _ + _ + _). assert (EN : Rsum (map (fun z => w z * (ln (w' z) - ln (w z))) (seqs K (length ps))) = ev * q); [|rewrite EN in J; apply (Rmult_le_reg_l ev); [exact Hp|exact J]].
  fold (ssum K (length ps) (fun z => w z * (ln (w' z) - ln (w z)))).
  rewrite (ssum_ext K _ _ (fun z => bsum K (fun k => w z * ind (at_time 0 k z) * (ln (hm_pi m' k) - ln (hm_pi m k))) +
     (bsum (length ps - 1) (fun n => bsum K (fun i => bsum K (fun j => w z * ind (at_time n i z && at_time (n + 1) j z) * (ln (hm_A m' i j) - ln (hm_A m i j))))) +
      bsum (length ps) (fun n => bsum K (fun k => w z * ind (at_time n k z) * (ln (nth n ps' (fun _ => 0) k) - ln (nth n ps (fun _ => 0) k))))))).
  - rewrite !ssum_plus. rewrite !ssum_bsum. unfold q. rewrite !Rmult_plus_distr_l. rewrite Rplus_assoc. f_equal; [|f_equal].
    + rewrite <- bsum_scal. apply bsum_ext. intros k Hk. rewrite G by auto. rewrite evidence_and_ssum. fold w. rewrite (ssum_ext K _ _ (fun z => (ln (hm_pi m' k) - ln (hm_pi m k)) * (w z * ind (at_time 0 k z)))) by (intros; ring). rewrite ssum_scal. field. lra.
    + rewrite <- bsum_scal. apply bsum_ext. intros n Hn. rewrite ssum_bsum, <- bsum_scal. apply bsum_ext. intros i Hi. rewrite ssum_bsum, <- bsum_scal. apply bsum_ext. intros j Hj. rewrite X by (auto; lia). rewrite evidence_and_ssum. fold w. rewrite (ssum_ext K _ _ (fun z => (ln (hm_A m' i j) - ln (hm_A m i j)) * (w z * ind (at_time n i z && at_time (n + 1) j z)))) by (intros; ring). rewrite ssum_scal. field. lra.
    + rewrite <- bsum_scal. apply bsum_ext. intros n Hn. rewrite ssum_bsum, <- bsum_scal. apply bsum_ext. intros k Hk. rewrite G by auto. rewrite evidence_and_ssum. fold w. rewrite (ssum_ext K _ _ (fun z => (ln (nth n ps' (fun _ => 0) k) - ln (nth n ps (fun _ => 0) k)) * (w z * ind (at_time n k z)))) by (intros; ring). rewrite ssum_scal. field. lra.
  - intros z L F. assert (S1 : bsum K (fun k => w z * ind (at_time 0 k z) * (ln (hm_pi m' k) - ln (hm_pi m k))) = w z * (ln (hm_pi m' (nth 0 z 0%nat)) - ln (hm_pi m (nth 0 z 0%nat)))).
    { rewrite (at_value K 0 z (fun k => ln (hm_pi m' k) - ln (hm_pi m k))) by (auto; lia). rewrite <- bsum_scal. apply bsum_ext. intros; ring. }
    assert (S2 : bsum (length ps - 1) (fun n => bsum K (fun i => bsum K (fun j => w z * ind (at_time n i z && at_time (n + 1) j z) * (ln (hm_A m' i j) - ln (hm_A m i j))))) = w z * (bsum (length ps - 1) (lnA (hm_A m') z) - bsum (length ps - 1) (lnA (hm_A m) z))).
    { rewrite <- bsum_minus, <- bsum_scal. apply bsum_ext. intros n Hn. unfold lnA. rewrite (pair_value K n z (fun i j => ln (hm_A m' i j) - ln (hm_A m i j))) by (auto; lia). rewrite <- bsum_scal. apply bsum_ext. intros i _. rewrite <- bsum_scal. apply bsum_ext. intros; ring. }
    assert (S3 : bsum (length ps) (fun n => bsum K (fun k => w z * ind (at_time n k z) * (ln (nth n ps' (fun _ => 0) k) - ln (nth n ps (fun _ => 0) k)))) = w z * (bsum (length ps) (fun n => ln (nth n ps' (fun _ => 0) (nth n z 0%nat))) - bsum (length ps) (fun n => ln (nth n ps (fun _ => 0) (nth n z 0%nat))))).
    { rewrite <- bsum_minus, <- bsum_scal. apply bsum_ext. intros n Hn. rewrite (at_value K n z (fun k => ln (nth n ps' (fun _ => 0) k) - ln (nth n ps (fun _ => 0) k))) by (auto; lia). rewrite <- bsum_scal. apply bsum_ext. intros; ring. }
    rewrite S1, S2, S3. assert (W0 : 0 <= w z) by (apply (joint_nonneg K); auto). destruct W0 as [W0|W0]; [|rewrite <- W0; ring]. pose proof (W z L F W0) as W1. unfold w at 2. unfold w'. rewrite (ln_joint K (hm_A m) (hm_pi m) ps z) by auto. rewrite (ln_joint K (hm_A m') (hm_pi m') ps' z) by (auto; lia). rewrite LL. ring.
Qed.
End Example.

(** ** All examples *)
Definition no_post : posterior := {| po_gamma := []; po_xi := []; po_ll := 0 |}.
Lemma Rsum_nth : forall {Z} (f : Z -> R) l d, Rsum (map f l) = bsum (length l) (fun t => f (nth t l d)).
Proof.
  intros Z f l d. induction l as [|a l IH]; [reflexivity|]. cbn [length map]. rewrite bsum_shift. cbn [nth]. unfold Rsum in *. cbn [fold_right]. now rewrite IH.
Qed.
Lemma Rsum_concat : forall {Z} (f : Z -> R) ll, Rsum (map f (concat ll)) = Rsum (map (fun l => Rsum (map f l)) ll).
Proof. intros Z f ll. induction ll as [|l ll IH]; [reflexivity|]. cbn [concat map]. rewrite map_app, Rsum_app, IH. reflexivity. Qed.
Definition Gs (es : list posterior) (k : nat) : R := bsum (length es) (fun t => g_at (nth t es no_post) 0 k).
Definition Xs (es : list posterior) (i j : nat) : R := bsum (length es) (fun t => bsum (length (po_xi (nth t es no_post))) (fun n => x_at (nth t es no_post) n i j)).
Lemma tabulate_spec : forall {B} K (f : nat -> option B) l, tabulate K f = Some l -> length l = K /\ forall k d, (k < K)%nat -> f k = Some (nth k l d).
Proof.
  intros B K f l H. unfold tabulate in H. pose proof (mapM_length _ _ _ H) as L. rewrite seq_length in L. split; [exact L|]. intros k d Hk. apply mapM_inv in H.
  assert (G : forall l1 l2, Forall2 (fun a b => f a = Some b) l1 l2 -> forall k, (k < length l1)%nat -> f (nth k l1 0%nat) = Some (nth k l2 d)). { clear. intros l1 l2 F. induction F as [|a b l1 l2 H F IH]; intros k Hk; [cbn in Hk; lia|]. destruct k; [exact H|]. apply IH. cbn in Hk. lia. }
  specialize (G _ _ H k). rewrite seq_length, seq_nth in G by auto. exact (G Hk).
Qed.
Lemma normalized_spec : forall K v p, normalized K v = Some p -> forall k, (k < K)%nat -> bsum K v <> 0 /\ p k = v k / bsum K v.
Proof.
  intros K v p H k Hk. unfold normalized in H. destruct (tabulate K _) as [l|] eqn:T; [|discriminate]. cbn [bind] in H. apply some_inj in H. subst p. destruct (tabulate_spec _ _ _ T) as [L S]. specialize (S k 0 Hk). unfold rdiv in S. destruct (Req_EM_T (bsum K v) 0); [discriminate|]. split; [assumption|]. unfold as_row. now apply some_inj in S.
Qed.
Lemma normalized_sum : forall K v p, (0 < K)%nat -> normalized K v = Some p -> bsum K p = 1.
Proof.
  intros K v p HK H. pose proof (normalized_spec K v p H) as N. destruct (N 0%nat HK) as [Nz _]. rewrite (bsum_ext K _ (fun k => v k * / bsum K v)) by (intros k Hk; apply (N k Hk)). rewrite bsum_scal_r. field. exact Nz.
Qed.
Lemma update_chain_spec : forall m es m', update_chain m es = Some m' -> hm_K m' = hm_K m /\ es <> [] /\
  (forall k, (k < hm_K m)%nat -> bsum (hm_K m) (Gs es) <> 0 /\ hm_pi m' k = Gs es k / bsum (hm_K m) (Gs es)) /\
  forall i j, hm_A m' i j = if Rlt_dec (bsum (hm_K m) (Xs es i)) tiny then 0 else Xs es i j / bsum (hm_K m) (Xs es i).
Proof.
  intros m es m' U. unfold update_chain in U. destruct (Nat.eqb_spec (length es) 0) as [|Hne]; [discriminate|]. destruct (normalized (hm_K m) _) as [p|] eqn:N; [|discriminate]. cbn [bind] in U. apply some_inj in U. subst m'. cbn [hm_K hm_pi hm_A].
  assert (EG : forall k, Rsum (map (fun e => hd (fun _ => 0) (po_gamma e) k) es) = Gs es k). { intros k. rewrite (Rsum_nth _ es no_post). apply bsum_ext. intros t _. unfold g_at. destruct (po_gamma (nth t es no_post)); reflexivity. }
  assert (EX : forall i j, Rsum (map (fun x => x i j) (concat (map po_xi es))) = Xs es i j). { intros i j. rewrite Rsum_concat, map_map, (Rsum_nth _ es no_post). apply bsum_ext. intros t _. apply (Rsum_nth (fun x : nat -> nat -> R => x i j) (po_xi (nth t es no_post)) (fun _ _ => 0)). }
  split; [reflexivity|]. split; [destruct es; [cbn in Hne; lia|discriminate]|]. split.
  - intros k Hk. destruct (normalized_spec _ _ _ N k Hk) as [N1 N2]. rewrite (bsum_ext (hm_K m) _ (Gs es)) in N1, N2 by (intros; apply EG). rewrite EG in N2. auto.
  - intros i j. cbv zeta. rewrite (bsum_ext (hm_K m) _ (Xs es i)) by (intros; apply EX). now rewrite EX.
Qed.

Lemma bsum_term : forall n f k, (forall i, (i < n)%nat -> 0 <= f i) -> (k < n)%nat -> f k <= bsum n f.
Proof.
  induction n as [|n IH]; intros f k H Hk; [lia|]. cbn [bsum]. destruct (Nat.eq_dec k n) as [->|Hne]; [pose proof (bsum_nonneg n f ltac:(intros; apply H; lia)); lra|]. specialize (IH f k ltac:(intros; apply H; lia) ltac:(lia)). specialize (H n ltac:(lia)). lra.
Qed.

Section All.
Variables m m' : hmm.
Notation K := (hm_K m).
Variables pss pss' : list (list (nat -> R)).
Variable es : list posterior.
Hypothesis SP : subprobs K (hm_A m) (hm_pi m).
Hypothesis ES : mapM (e_step m) pss = Some es.
Hypothesis UC : update_chain m es = Some m'.
Hypothesis LL : length pss' = length pss.
Hypothesis Ll : forall t, (t < length pss)%nat -> length (nth t pss' []) = length (nth t pss []).
Hypothesis N0 : forall t, (t < length pss)%nat -> nonneg_all K (nth t pss []).
Hypothesis N1 : forall t, (t < length pss)%nat -> nonneg_all K (nth t pss' []).

Lemma es_len : length es = length pss.
Proof. exact (mapM_length _ _ _ ES). Qed.
Lemma es_nth : forall t, (t < length pss)%nat -> e_step m (nth t pss []) = Some (nth t es no_post).
Proof.
  assert (G : forall (l1 : list (list (nat -> R))) l2, Forall2 (fun a b => e_step m a = Some b) l1 l2 -> forall t, (t < length l1)%nat -> e_step m (nth t l1 []) = Some (nth t l2 no_post)). { clear. intros l1 l2 F. induction F as [|a b l1 l2 H F IH]; intros t Ht; [cbn in Ht; lia|]. destruct t; [exact H|]. apply IH. cbn in Ht. lia. }
  apply G. apply mapM_inv. exact ES.
Qed.
Lemma A_nonneg : forall i j, (i < K)%nat -> (j < K)%nat -> 0 <= hm_A m i j.
Proof. intros i j Hi Hj. apply SP; auto. Qed.
Lemma pi_nonneg : forall k, (k < K)%nat -> 0 <= hm_pi m k.
Proof. intros k Hk. apply SP; auto. Qed.
Lemma xi_len : forall t, (t < length pss)%nat -> length (po_xi (nth t es no_post)) = (length (nth t pss []) - 1)%nat.
Proof. intros t Ht. destruct (e_step_spec _ _ _ (es_nth t Ht)) as (_ & _ & _ & L & _). lia. Qed.
Lemma ps_pos : forall t, (t < length pss)%nat -> (0 < length (nth t pss []))%nat.
Proof. intros t Ht. destruct (e_step_spec _ _ _ (es_nth t Ht)) as (H & _). destruct (nth t pss []); [congruence|cbn; lia]. Qed.
Lemma g_pos : forall t n k, (t < length pss)%nat -> (n < length (nth t pss []))%nat -> (k < K)%nat -> 0 <= g_at (nth t es no_post) n k.
Proof. intros t n k Ht Hn Hk. apply (g_nonneg m A_nonneg pi_nonneg (nth t pss []) (N0 t Ht) _ (es_nth t Ht)); auto. Qed.
Lemma x_pos : forall t n i j, (t < length pss)%nat -> (n + 1 < length (nth t pss []))%nat -> (i < K)%nat -> (j < K)%nat -> 0 <= x_at (nth t es no_post) n i j.
Proof. intros t n i j Ht Hn Hi Hj. apply (x_nonneg m A_nonneg pi_nonneg (nth t pss []) (N0 t Ht) _ (es_nth t Ht)); auto. Qed.
Lemma Gs_ge : forall t k, (t < length pss)%nat -> (k < K)%nat -> g_at (nth t es no_post) 0 k <= Gs es k.
Proof. intros t k Ht Hk. unfold Gs. apply (bsum_term (length es) (fun t => g_at (nth t es no_post) 0 k) t); [|rewrite es_len; exact Ht]. intros u Hu. rewrite es_len in Hu. apply g_pos; auto. now apply ps_pos. Qed.
Lemma Gs_nonneg : forall k, (k < K)%nat -> 0 <= Gs es k.
Proof. intros k Hk. unfold Gs. apply bsum_nonneg. intros u Hu. rewrite es_len in Hu. apply g_pos; auto. now apply ps_pos. Qed.
Lemma Xs_nonneg : forall i j, (i < K)%nat -> (j < K)%nat -> 0 <= Xs es i j.
Proof. intros i j Hi Hj. unfold Xs. apply bsum_nonneg. intros u Hu. rewrite es_len in Hu. apply bsum_nonneg. intros n Hn. rewrite xi_len in Hn by auto. apply x_pos; auto; lia. Qed.
Lemma Xs_ge : forall t n i j, (t < length pss)%nat -> (n + 1 < length (nth t pss []))%nat -> (i < K)%nat -> (j < K)%nat -> x_at (nth t es no_post) n i j <= Xs es i j.
Proof.
  intros t n i j Ht Hn Hi Hj. unfold Xs. assert (P : forall u, (u < length pss)%nat -> forall n, (n < length (po_xi (nth u es no_post)))%nat -> 0 <= x_at (nth u es no_post) n i j) by (intros u Hu q Hq; rewrite xi_len in Hq by auto; apply x_pos; auto; lia).
  apply Rle_trans with (bsum (length (po_xi (nth t es no_post))) (fun n => x_at (nth t es no_post) n i j)); [apply (bsum_term _ (fun n => x_at (nth t es no_post) n i j) n); [now apply P|rewrite xi_len by auto; lia]|].
  apply (bsum_term (length es) (fun t => bsum (length (po_xi (nth t es no_post))) (fun n => x_at (nth t es no_post) n i j)) t); [|rewrite es_len; exact Ht]. intros u Hu. rewrite es_len in Hu. apply bsum_nonneg. now apply P.
Qed.
Lemma tiny_pos : 0 < tiny.
Proof. unfold tiny. apply Rinv_0_lt_compat, pow_lt. lra. Qed.
(** the new chain is made of probabilities *)
Lemma new_nonneg : (forall k, (k < K)%nat -> 0 <= hm_pi m' k) /\ forall i j, (i < K)%nat -> (j < K)%nat -> 0 <= hm_A m' i j.
Proof.
  destruct (update_chain_spec _ _ _ UC) as (_ & _ & U1 & U2). split.
  - intros k Hk. destruct (U1 k Hk) as [Hz ->]. pose proof (bsum_nonneg K (Gs es) Gs_nonneg). apply Rmult_le_pos; [now apply Gs_nonneg|left; apply Rinv_0_lt_compat; lra].
  - intros i j Hi Hj. rewrite U2. destruct (Rlt_dec _ tiny); [lra|]. pose proof tiny_pos. apply Rmult_le_pos; [now apply Xs_nonneg|left; apply Rinv_0_lt_compat; lra].
Qed.
Lemma new_sums : ((0 < K)%nat -> bsum K (hm_pi m') = 1) /\ forall i, bsum K (hm_A m' i) = if Rlt_dec (bsum K (Xs es i)) tiny then 0 else 1.
Proof.
  destruct (update_chain_spec _ _ _ UC) as (_ & _ & U1 & U2). split.
  - intros HK. destruct (U1 0%nat HK) as [Hz _]. rewrite (bsum_ext K _ (fun k => Gs es k * / bsum K (Gs es))) by (intros k Hk; apply (U1 k Hk)). rewrite bsum_scal_r. field. exact Hz.
  - intros i. destruct (Rlt_dec (bsum K (Xs es i)) tiny) as [L|L].
    + apply bsum_zero_ext. intros j _. rewrite U2. destruct (Rlt_dec _ _); [reflexivity|contradiction].
    + rewrite (bsum_ext K _ (fun j => Xs es i j * / bsum K (Xs es i))). 2: { intros j _. rewrite U2. destruct (Rlt_dec _ _); [contradiction|reflexivity]. } rewrite bsum_scal_r. pose proof tiny_pos. field. lra.
Qed.

Hypothesis NT : forall i, (i < K)%nat -> bsum K (Xs es i) = 0 \/ tiny <= bsum K (Xs es i).
Hypothesis Gp : forall t n k, (t < length pss)%nat -> (n < length (nth t pss []))%nat -> (k < K)%nat -> 0 < g_at (nth t es no_post) n k -> 0 < nth n (nth t pss' []) (fun _ => 0) k.
Hypothesis GE : 0 <= bsum (length pss) (fun t => bsum (length (nth t pss [])) (fun n => bsum K (fun k => g_at (nth t es no_post) n k * (ln (nth n (nth t pss' []) (fun _ => 0) k) - ln (nth n (nth t pss []) (fun _ => 0) k))))).

Lemma total_gain : bsum (length pss) (fun t => ln (evidence K (hm_A m) (hm_pi m) (nth t pss []))) <= bsum (length pss) (fun t => ln (evidence K (hm_A m') (hm_pi m') (nth t pss' []))) /\
  forall t, (t < length pss)%nat -> 0 < evidence K (hm_A m') (hm_pi m') (nth t pss' []).
Proof.
  destruct (update_chain_spec _ _ _ UC) as (KK & _ & U1 & U2). destruct new_nonneg as [NP NA].
  assert (Hpi : forall k, (k < K)%nat -> 0 < Gs es k -> 0 < hm_pi m' k). { intros k Hk Hg. destruct (U1 k Hk) as [Hz ->]. pose proof (bsum_nonneg K (Gs es) Gs_nonneg). apply Rdiv_lt_0_compat; lra. }
  assert (Hden : forall i j, (i < K)%nat -> (j < K)%nat -> 0 < Xs es i j -> tiny <= bsum K (Xs es i)). { intros i j Hi Hj Hx. destruct (NT i Hi) as [Z|]; [|assumption]. pose proof (bsum_term K (Xs es i) j ltac:(intros; now apply Xs_nonneg) Hj). lra. }
  assert (HA : forall i j, (i < K)%nat -> (j < K)%nat -> 0 < Xs es i j -> 0 < hm_A m' i j). { intros i j Hi Hj Hx. pose proof (Hden i j Hi Hj Hx). rewrite U2. destruct (Rlt_dec _ tiny); [lra|]. pose proof tiny_pos. apply Rdiv_lt_0_compat; lra. }
  assert (G : forall t, (t < length pss)%nat ->
    bsum K (fun k => g_at (nth t es no_post) 0 k * (ln (hm_pi m' k) - ln (hm_pi m k))) +
    bsum (length (nth t pss []) - 1) (fun n => bsum K (fun i => bsum K (fun j => x_at (nth t es no_post) n i j * (ln (hm_A m' i j) - ln (hm_A m i j))))) +
    bsum (length (nth t pss [])) (fun n => bsum K (fun k => g_at (nth t es no_post) n k * (ln (nth n (nth t pss' []) (fun _ => 0) k) - ln (nth n (nth t pss []) (fun _ => 0) k))))
    <= ln (evidence K (hm_A m') (hm_pi m') (nth t pss' [])) - ln (evidence K (hm_A m) (hm_pi m) (nth t pss [])) /\ 0 < evidence K (hm_A m') (hm_pi m') (nth t pss' [])).
  { intros t Ht. apply (example_gain m m' KK A_nonneg pi_nonneg NA NP (nth t pss []) (nth t pss' []) (Ll t Ht) (N0 t Ht) (N1 t Ht) _ (es_nth t Ht)).
    - intros k Hk Hg. apply Hpi; auto. pose proof (Gs_ge t k Ht Hk). lra.
    - intros n i j Hn Hi Hj Hx. apply HA; auto. pose proof (Xs_ge t n i j Ht Hn Hi Hj). lra.
    - intros n k Hn Hk Hg. now apply (Gp t n k). }
  split; [|intros t Ht; apply (G t Ht)]. assert (Sg := bsum_le (length pss) _ _ (fun t Ht => proj1 (G t Ht))). rewrite bsum_minus, !bsum_plus in Sg.
  assert (B1 : 0 <= bsum (length pss) (fun t => bsum K (fun k => g_at (nth t es no_post) 0 k * (ln (hm_pi m' k) - ln (hm_pi m k))))).
  { rewrite bsum_swap. rewrite (bsum_ext K _ (fun k => Gs es k * (ln (Gs es k / bsum K (Gs es)) - ln (hm_pi m k)))).
    2: { intros k Hk. rewrite bsum_scal_r. unfold Gs at 1. rewrite es_len. destruct (U1 k Hk) as [_ <-]. reflexivity. }
    destruct (Nat.eq_dec K 0) as [KZ|KZ]; [rewrite KZ; cbn; lra|]. apply gibbs.
    - intros k Hk. split; [now apply Gs_nonneg|]. split; [now apply pi_nonneg|]. intros Hg. destruct (pi_nonneg k Hk) as [|Z]; [assumption|]. exfalso.
      assert (forall t, (t < length pss)%nat -> g_at (nth t es no_post) 0 k = 0). { intros t Ht. rewrite (g_spec m (nth t pss []) _ (es_nth t Ht)) by (auto; now apply ps_pos). apply Rmult_eq_0_compat_r. rewrite evidence_and_ssum. rewrite <- (ssum_zero K (length (nth t pss []))). apply ssum_ext. intros z Lz Fz. unfold at_time. destruct (nth t pss []) as [|p q] eqn:Eq; [pose proof (ps_pos t Ht) as PP; rewrite Eq in PP; cbn in PP; lia|]. destruct z as [|a z]; [discriminate|]. cbn [nth_error joint]. destruct (Nat.eqb_spec a k) as [->|]; [rewrite <- Z; cbn [ind]; ring|cbn [ind]; ring]. }
      unfold Gs in Hg. rewrite bsum_zero_ext in Hg; [lra|]. intros u Hu. rewrite es_len in Hu. auto.
    - apply SP.
    - destruct (U1 0%nat ltac:(lia)) as [Hz _]. pose proof (bsum_nonneg K (Gs es) Gs_nonneg). lra. }
  assert (B2 : 0 <= bsum (length pss) (fun t => bsum (length (nth t pss []) - 1) (fun n => bsum K (fun i => bsum K (fun j => x_at (nth t es no_post) n i j * (ln (hm_A m' i j) - ln (hm_A m i j))))))).
  { rewrite (bsum_ext (length pss) _ (fun t => bsum K (fun i => bsum K (fun j => bsum (length (po_xi (nth t es no_post))) (fun n => x_at (nth t es no_post) n i j) * (ln (hm_A m' i j) - ln (hm_A m i j)))))).
    2: { intros t Ht. rewrite xi_len by auto. rewrite bsum_swap. apply bsum_ext. intros i _. rewrite bsum_swap. apply bsum_ext. intros j _. apply bsum_scal_r. }
    rewrite bsum_swap. apply bsum_nonneg. intros i Hi. rewrite bsum_swap. rewrite (bsum_ext K _ (fun j => Xs es i j * (ln (hm_A m' i j) - ln (hm_A m i j)))) by (intros j _; rewrite bsum_scal_r; unfold Xs; now rewrite es_len).
    destruct (NT i Hi) as [Z|Z].
    - apply Req_le. symmetry. apply bsum_zero_ext. intros j Hj. pose proof (bsum_term K (Xs es i) j ltac:(intros; now apply Xs_nonneg) Hj). pose proof (Xs_nonneg i j Hi Hj). replace (Xs es i j) with 0 by lra. ring.
    - pose proof tiny_pos. rewrite (bsum_ext K _ (fun j => Xs es i j * (ln (Xs es i j / bsum K (Xs es i)) - ln (hm_A m i j)))) by (intros j _; rewrite U2; destruct (Rlt_dec _ tiny); [lra|reflexivity]).
      apply gibbs; [|apply SP; exact Hi|lra]. intros j Hj. split; [now apply Xs_nonneg|]. split; [now apply A_nonneg|]. intros Hx. destruct (A_nonneg i j Hi Hj) as [|Za]; [assumption|]. exfalso. unfold Xs in Hx. rewrite bsum_zero_ext in Hx; [lra|]. intros u Hu. rewrite es_len in Hu. apply bsum_zero_ext. intros n Hn. rewrite xi_len in Hn by auto.
      rewrite (x_spec m (nth u pss []) _ (es_nth u Hu)) by (auto; lia). apply Rmult_eq_0_compat_r. rewrite evidence_and_ssum. rewrite <- (ssum_zero K (length (nth u pss []))). apply ssum_ext. intros z Lz Fz. destruct (at_time n i z && at_time (n + 1) j z)%bool eqn:At; [|cbn [ind]; ring].
      assert (J0 : joint (hm_A m) (hm_pi m) (nth u pss []) z <= 0); [|pose proof (joint_nonneg K (hm_A m) (hm_pi m) (nth u pss []) z A_nonneg pi_nonneg (N0 u Hu) Fz); replace (joint (hm_A m) (hm_pi m) (nth u pss []) z) with 0 by lra; ring].
      apply Rnot_lt_le. intros Jp. apply (joint_pos K) in Jp; auto using A_nonneg, pi_nonneg; [|pose proof (ps_pos u Hu); destruct (nth u pss []); [cbn in *; lia|discriminate]]. destruct Jp as (_ & _ & Jp). specialize (Jp n ltac:(lia)). apply andb_true_iff in At. destruct At as [At1 At2]. unfold at_time in At1, At2. rewrite (nth_error_nth' z 0%nat) in At1 by lia. rewrite (nth_error_nth' z 0%nat) in At2 by lia. apply Nat.eqb_eq in At1, At2. rewrite Nat.add_1_r in At2. rewrite At1, At2 in Jp. lra. }
  lra.
Qed.
End All.
