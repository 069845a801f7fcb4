From Coq Require Import List ZArith Lia Reals Lra Bool.
From Verif Require Import Base Vec Sum Cpx BackModel AuxivaModel AuxivaSpec BaseProofs AuxivaProofs DetProofs FmnmfModel FmnmfSpec.
Import ListNotations.
Local Open Scope R_scope.

(** ** Multiplicative updates *)
Lemma frac_nonneg : forall a b, 0 <= a -> 0 < b -> 0 <= a / b.
Proof. intros. apply Rmult_le_pos; [auto|left; now apply Rinv_0_lt_compat]. Qed.
Lemma bsum_zero_terms : forall n e, (forall i, (i < n)%nat -> 0 <= e i) -> bsum n e = 0 -> forall i, (i < n)%nat -> e i = 0.
Proof.
  induction n as [|n IH]; intros e He H i Hi; [lia|]. cbn in H. assert (0 <= bsum n e) by (apply bsum_nonneg; auto). pose proof (He n ltac:(lia)).
  destruct (Nat.eq_dec i n) as [->|]; [lra|]. apply IH; auto; [lra|lia].
Qed.
Lemma bsum_flat : forall A B f, (0 < B)%nat -> bsum (A * B) (fun i => f (i / B)%nat (i mod B)%nat) = bsum A (fun a => bsum B (fun b => f a b)).
Proof.
  induction A as [|A IH]; intros B f HB; [reflexivity|]. rewrite Nat.mul_succ_l, bsum_split, IH by auto. cbn. f_equal. apply bsum_ext. intros i Hi.
  replace ((A * B + i) / B)%nat with A by (rewrite Nat.div_add_l by lia; rewrite Nat.div_small by auto; lia).
  replace ((A * B + i) mod B)%nat with i; [reflexivity|]. rewrite Nat.add_comm, Nat.mod_add by lia. symmetry. now apply Nat.mod_small.
Qed.
(** weighted Cauchy-Schwarz; terms with [x k = 0] must have [a k = 0] *)
Lemma titu : forall K (a x : nat -> R), (forall k, (k < K)%nat -> 0 <= x k) -> (forall k, (k < K)%nat -> x k = 0 -> a k = 0) -> 0 < bsum K x ->
  (bsum K a) ^ 2 / bsum K x <= bsum K (fun k => a k ^ 2 / x k).
Proof.
  intros K a x Hx H0 Px. set (r := bsum K a). set (r' := bsum K x) in *. set (c := r / r').
  assert (E : r ^ 2 / r' = bsum K (fun k => 2 * c * a k + - c ^ 2 * x k)). { rewrite bsum_plus, !bsum_scal. fold r r'. unfold c. field. lra. }
  rewrite E. apply bsum_le. intros k Hk. destruct (Req_dec (x k) 0) as [E0|N0].
  - rewrite (H0 k Hk E0), E0. replace (0 ^ 2 / 0) with 0 by (unfold Rdiv; ring). lra.
  - specialize (Hx k Hk). assert (D : a k ^ 2 / x k - (2 * c * a k + - c ^ 2 * x k) = (a k - c * x k) * (a k - c * x k) / x k) by (field; lra).
    assert (0 <= (a k - c * x k) * (a k - c * x k) / x k); [|lra]. apply frac_nonneg; [apply Rle_0_sqr|lra].
Qed.
Lemma mult_entry : forall w a b, 0 <= w -> 0 <= a -> 0 < b ->
  let w' := w * sqrt (a / b) in 0 <= w' /\ (w' = 0 -> w ^ 2 * a = 0) /\ w ^ 2 * a / w' + b * w' <= w * a + b * w.
Proof.
  intros w a b Hw Ha Hb w'. pose proof (frac_nonneg a b Ha Hb) as Hab. set (s := sqrt (a / b)) in *. assert (Ps : 0 <= s) by apply sqrt_pos.
  assert (Es : a = b * (s * s)) by (unfold s; rewrite sqrt_sqrt by auto; field; lra). assert (Pw : 0 <= w') by (unfold w'; apply Rmult_le_pos; auto).
  split; [auto|split].
  - intros H. unfold w' in H. apply Rmult_integral in H. destruct H as [->| H]; [ring|]. rewrite Es, H. ring.
  - destruct (Req_dec w' 0) as [E0|N0].
    + assert (E : w ^ 2 * a = 0). { unfold w' in E0. apply Rmult_integral in E0. destruct E0 as [->| H]; [ring|]. rewrite Es, H. ring. }
      rewrite E, E0. replace (0 / 0 + b * 0) with 0 by (unfold Rdiv; ring). assert (0 <= w * a) by (apply Rmult_le_pos; auto). assert (0 <= b * w) by (apply Rmult_le_pos; lra). lra.
    + assert (w <> 0 /\ s <> 0) as [Nw Ns] by (unfold w' in N0; split; intros ->; apply N0; ring).
      replace (w ^ 2 * a / w') with (w * b * s) by (rewrite Es; unfold w'; field; auto). rewrite Es. unfold w'.
      assert (0 <= (w * b) * ((s - 1) * (s - 1))); [|nra]. apply Rmult_le_pos; [apply Rmult_le_pos; lra|apply Rle_0_sqr].
Qed.

Lemma mult_decreases : forall n K e (p c : nat -> R) (a : nat -> nat -> R) (w : nat -> R), 0 <= e ->
  (forall i, (i < n)%nat -> 0 <= p i /\ 0 <= c i) -> (forall i k, (i < n)%nat -> (k < K)%nat -> 0 <= a i k) -> (forall k, (k < K)%nat -> 0 <= w k) ->
  let y w i := bsum K (fun k => w k * a i k) + c i in
  let A k := bsum n (fun i => a i k * (p i / y w i ^ 2)) in
  let B k := bsum n (fun i => a i k * (1 / y w i)) + e in
  (forall i, (i < n)%nat -> 0 < y w i) -> (forall k, (k < K)%nat -> B k <> 0) ->
  forall w' : nat -> R, (forall k, (k < K)%nat -> w' k = w k * sqrt (A k / B k)) -> (forall i, (i < n)%nat -> y w' i <> 0) ->
  (forall k, (k < K)%nat -> 0 <= w' k) /\
  bsum n (fun i => cost (p i) (y w' i)) + e * bsum K w' <= bsum n (fun i => cost (p i) (y w i)) + e * bsum K w.
Proof.
  intros n K e p c a w He Hpc Ha Hw y A B Hy HB w' Ew' Hy'.
  assert (PA : forall k, (k < K)%nat -> 0 <= A k).
  { intros k Hk. apply bsum_nonneg. intros i Hi. apply Rmult_le_pos; [auto|]. apply frac_nonneg; [apply Hpc; auto|apply pow_lt; auto]. }
  assert (PB : forall k, (k < K)%nat -> 0 < B k).
  { intros k Hk. assert (0 <= bsum n (fun i => a i k * (1 / y w i))); [|specialize (HB k Hk); unfold B in *; lra]. apply bsum_nonneg. intros i Hi. apply Rmult_le_pos; [auto|]. apply frac_nonneg; [lra|auto]. }
  assert (En : forall k, (k < K)%nat -> 0 <= w' k /\ (w' k = 0 -> w k ^ 2 * A k = 0) /\ w k ^ 2 * A k / w' k + B k * w' k <= w k * A k + B k * w k).
  { intros k Hk. rewrite Ew' by auto. apply mult_entry; auto. }
  assert (Py' : forall i, (i < n)%nat -> 0 < y w' i).
  { intros i Hi. specialize (Hy' i Hi). assert (0 <= y w' i); [|lra]. unfold y. assert (0 <= bsum K (fun k => w' k * a i k)) by (apply bsum_nonneg; intros k Hk; apply Rmult_le_pos; [apply En; auto|auto]). pose proof (Hpc i Hi). lra. }
  split; [intros k Hk; now apply En|].
  (* one data point *)
  assert (Pt : forall i, (i < n)%nat -> cost (p i) (y w' i) <= bsum K (fun k => p i / y w i ^ 2 * (w k ^ 2 / w' k * a i k)) + bsum K (fun k => w' k * (a i k * (1 / y w i))) + (p i / y w i ^ 2 * c i + c i / y w i + ln (y w i) - 1)).
  { intros i Hi. destruct (Hpc i Hi) as [Pp Pc]. pose proof (Hy i Hi) as Y. pose proof (Py' i Hi) as Y'.
    pose proof (ln_le_minus (y w' i / y w i) ltac:(apply Rdiv_lt_0_compat; auto)) as L. rewrite ln_quot in L by auto.
    assert (E2 : bsum K (fun k => w' k * (a i k * (1 / y w i))) = y w' i / y w i - c i / y w i).
    { rewrite (bsum_ext K _ (fun k => (w' k * a i k) * / y w i)) by (intros; field; lra). rewrite bsum_scal_r. unfold y. field. fold (y w i). lra. }
    rewrite E2. assert (E1 : p i / y w' i <= bsum K (fun k => p i / y w i ^ 2 * (w k ^ 2 / w' k * a i k)) + p i / y w i ^ 2 * c i); [|unfold cost; lra].
    destruct (Req_dec (p i) 0) as [Z|NZ].
    { rewrite Z. rewrite bsum_zero_ext by (intros; unfold Rdiv; ring). unfold Rdiv. rewrite !Rmult_0_l. lra. }
    assert (Zk : forall k, (k < K)%nat -> w' k * a i k = 0 -> w k * a i k = 0).
    { intros k Hk Hz. apply Rmult_integral in Hz. destruct Hz as [Hz|Hz]; [|rewrite Hz; ring]. destruct (En k Hk) as (_ & En0 & _). specialize (En0 Hz).
      apply Rmult_integral in En0. destruct En0 as [En0|En0]; [apply Rmult_integral in En0; destruct En0 as [En0|En0]; [rewrite En0; ring|]; rewrite Rmult_1_r in En0; rewrite En0; ring|].
      assert (Nn : forall j, (j < n)%nat -> 0 <= a j k * (p j / y w j ^ 2)) by (intros j Hj; apply Rmult_le_pos; [apply Ha; auto|apply frac_nonneg; [apply Hpc; auto|apply pow_lt; auto]]).
      pose proof (bsum_zero_terms n _ Nn En0 i Hi) as Z. cbv beta in Z.
      apply Rmult_integral in Z. destruct Z as [->|Z]; [ring|]. exfalso. unfold Rdiv in Z. apply Rmult_integral in Z. destruct Z as [Z|Z]; [auto|]. revert Z. apply Rinv_neq_0_compat. apply pow_nonzero. lra. }
    (* index K stands for the constant *)
    set (aa := fun k => if Nat.eqb k K then c i else w k * a i k). set (xx := fun k => if Nat.eqb k K then c i else w' k * a i k).
    assert (Sa : bsum (S K) aa = y w i). { cbn. unfold y. f_equal; [apply bsum_ext; intros k Hk; unfold aa; destruct (Nat.eqb_spec k K); [lia|reflexivity]|unfold aa; now rewrite Nat.eqb_refl]. }
    assert (Sx : bsum (S K) xx = y w' i). { cbn. unfold y. f_equal; [apply bsum_ext; intros k Hk; unfold xx; destruct (Nat.eqb_spec k K); [lia|reflexivity]|unfold xx; now rewrite Nat.eqb_refl]. }
    assert (Ti : bsum (S K) aa ^ 2 / bsum (S K) xx <= bsum (S K) (fun k => aa k ^ 2 / xx k)).
    { apply titu.
      - intros k Hk. unfold xx. destruct (Nat.eqb_spec k K); [auto|]. apply Rmult_le_pos; [apply En; lia|apply Ha; auto; lia].
      - intros k Hk. unfold xx, aa. destruct (Nat.eqb_spec k K); [auto|]. apply Zk. lia.
      - rewrite Sx. auto. }
    rewrite Sa, Sx in Ti. cbn [bsum] in Ti. unfold aa at 2, xx at 2 in Ti. rewrite !Nat.eqb_refl in Ti.
    assert (Ec : c i ^ 2 / c i = c i). { destruct (Req_dec (c i) 0) as [Z|]; [rewrite Z; unfold Rdiv; ring|field; auto]. } rewrite Ec in Ti.
    rewrite (bsum_ext K _ (fun k => w k ^ 2 / w' k * a i k)) in Ti.
    2:{ intros k Hk. unfold aa, xx. destruct (Nat.eqb_spec k K); [lia|]. destruct (Req_dec (a i k) 0) as [Z|NA]; [rewrite Z; unfold Rdiv; ring|].
        destruct (Req_dec (w' k) 0) as [Z|]; [|field; auto]. pose proof (Zk k Hk ltac:(rewrite Z; ring)) as Q. assert (Qw : w k = 0) by (apply Rmult_integral in Q; destruct Q; [auto|contradiction]). rewrite Qw. unfold Rdiv. ring. }
    assert (Pc2 : 0 <= p i / y w i ^ 2) by (apply frac_nonneg; [auto|apply pow_lt; auto]).
    apply (Rmult_le_compat_l (p i / y w i ^ 2)) in Ti; auto. rewrite bsum_scal.
    replace (p i / y w i ^ 2 * (y w i ^ 2 / y w' i)) with (p i / y w' i) in Ti by (field; lra). lra. }
  pose proof (bsum_le n _ _ Pt) as S1. rewrite 2 bsum_plus in S1. rewrite (bsum_swap n K) in S1. rewrite (bsum_swap n K) in S1.
  rewrite (bsum_ext K _ (fun k => w k ^ 2 * A k / w' k)) in S1.
  2:{ intros k Hk. unfold A. rewrite (bsum_ext n _ (fun i => (w k ^ 2 / w' k) * (a i k * (p i / y w i ^ 2)))) by (intros; ring). rewrite bsum_scal. unfold Rdiv. ring. }
  rewrite (bsum_ext K (fun j => bsum n (fun i => w' j * (a i j * (1 / y w i)))) (fun k => w' k * (B k - e))) in S1.
  2:{ intros k Hk. rewrite bsum_scal. unfold B. f_equal. ring. }
  (* the same at the old point *)
  assert (Old : bsum n (fun i => cost (p i) (y w i)) = bsum K (fun k => w k * A k) + bsum K (fun k => w k * (B k - e)) + bsum n (fun i => p i / y w i ^ 2 * c i + c i / y w i + ln (y w i) - 1)).
  { rewrite (bsum_ext K (fun k => w k * A k) (fun k => bsum n (fun i => p i / y w i ^ 2 * (w k * a i k)))).
    2:{ intros k Hk. unfold A. rewrite <- bsum_scal. apply bsum_ext. intros; ring. }
    rewrite (bsum_ext K (fun k => w k * (B k - e)) (fun k => bsum n (fun i => / y w i * (w k * a i k)))).
    2:{ intros k Hk. unfold B. replace (bsum n (fun i => a i k * (1 / y w i)) + e - e) with (bsum n (fun i => a i k * (1 / y w i))) by ring. rewrite <- bsum_scal. apply bsum_ext. intros i Hi. specialize (Hy i Hi). field. lra. }
    rewrite (bsum_swap K n), (bsum_swap K n), <- !bsum_plus. apply bsum_ext. intros i Hi. specialize (Hy i Hi). rewrite !bsum_scal.
    replace (bsum K (fun i0 => w i0 * a i i0)) with (y w i - c i) by (unfold y; ring). unfold cost. field. lra. }
  rewrite Old. rewrite <- !(bsum_scal K e).
  assert (Ek : bsum K (fun k => w k ^ 2 * A k / w' k) + bsum K (fun k => w' k * (B k - e)) + bsum K (fun k => e * w' k) <= bsum K (fun k => w k * A k) + bsum K (fun k => w k * (B k - e)) + bsum K (fun k => e * w k)); [|lra].
  rewrite <- !bsum_plus. apply bsum_le. intros k Hk. destruct (En k Hk) as (_ & _ & E3). lra.
Qed.

(** ** Guards *)
Lemma all_nz_spec : forall n a, all_nz n a = true -> forall i, (i < n)%nat -> a i <> 0.
Proof.
  intros n a H i Hi. unfold all_nz in H. rewrite forallb_forall in H. specialize (H i ltac:(apply in_seq; lia)). unfold nzb in H. destruct (Req_EM_T (a i) 0); [discriminate|auto].
Qed.
Lemma all_nz2_spec : forall n m a, all_nz2 n m a = true -> forall i j, (i < n)%nat -> (j < m)%nat -> a i j <> 0.
Proof.
  intros n m a H i j Hi Hj. unfold all_nz2 in H. rewrite forallb_forall in H. specialize (H i ltac:(apply in_seq; lia)). now apply (all_nz_spec m).
Qed.
Lemma all_nz3_spec : forall n m l a, all_nz3 n m l a = true -> forall i j k, (i < n)%nat -> (j < m)%nat -> (k < l)%nat -> a i j k <> 0.
Proof.
  intros n m l a H i j k Hi Hj Hk. unfold all_nz3 in H. rewrite forallb_forall in H. specialize (H i ltac:(apply in_seq; lia)). now apply (all_nz2_spec m l).
Qed.
Lemma guard_Some : forall A b (o : option A) x, guard b o = Some x -> b = true /\ o = Some x.
Proof. intros A [] o x H; [auto|discriminate]. Qed.
Lemma all_nz_intro : forall n a, (forall i, (i < n)%nat -> a i <> 0) -> all_nz n a = true.
Proof. intros n a H. apply forallb_forall. intros i Hi. apply in_seq in Hi. unfold nzb. destruct (Req_EM_T (a i) 0) as [E|]; [exfalso; apply (H i); [lia|auto]|auto]. Qed.
Lemma all_nz2_intro : forall n m a, (forall i j, (i < n)%nat -> (j < m)%nat -> a i j <> 0) -> all_nz2 n m a = true.
Proof. intros n m a H. apply forallb_forall. intros i Hi. apply in_seq in Hi. apply all_nz_intro. intros; apply H; lia. Qed.
Lemma all_nz3_intro : forall n m l a, (forall i j k, (i < n)%nat -> (j < m)%nat -> (k < l)%nat -> a i j k <> 0) -> all_nz3 n m l a = true.
Proof. intros n m l a H. apply forallb_forall. intros i Hi. apply in_seq in Hi. apply all_nz2_intro. intros; apply H; lia. Qed.

(** ** The images *)
Lemma bsum_term_le : forall n f, (forall i, (i < n)%nat -> 0 <= f i) -> forall i, (i < n)%nat -> f i <= bsum n f.
Proof.
  induction n as [|n IH]; intros f H i Hi; [lia|]. cbn. destruct (Nat.eq_dec i n) as [->|Ne]; [pose proof (bsum_nonneg n f ltac:(auto)); lra|]. pose proof (IH f ltac:(auto) i ltac:(lia)). pose proof (H n ltac:(lia)). lra.
Qed.
(** the sum over the sources, as seen by the caller *)
Definition adds_up (F M N T : nat) (X : nat -> nat -> nat -> C) (mi : mic) (y : images) : Prop :=
  match y with
  | ImagesAll g => mi = All /\ forall i t f, (i < M)%nat -> (t < T)%nat -> (f < F)%nat -> csum N (fun n => g i t f n) = X f t i
  | ImagesOne g => exists i, (i < M)%nat /\ (mi = Mic (Z.of_nat i) \/ mi = Mic (Z.of_nat i - Z.of_nat M)) /\
      forall t f, (t < T)%nat -> (f < F)%nat -> csum N (fun n => g t f n) = X f t i
  end.
Section Images.
Variables (F M N T : nat) (X : nat -> nat -> nat -> C).
Lemma image_sum : forall st (Qi : nat -> mat) f i t, (forall i j, (i < M)%nat -> (j < M)%nat -> mulmat M (Qi f) (sQ st f) i j = unit_vec i j) -> (i < M)%nat ->
  (forall j, (j < M)%nat -> bsum N (fun n => sL st n f t * sG st n f j) <> 0) ->
  csum N (fun n => csum M (fun j => (Qi f i j * Cscal (/ bsum N (fun n => (sL st n f t * sG st n f j)%R)) (proj M X (sQ st) f t j) * RtoC (sL st n f t * sG st n f j))%C)) = X f t i.
Proof.
  intros st Qi f i t Hi Hm Hnz. rewrite csum_swap.
  rewrite (csum_ext M _ (fun j => (Qi f i j * mv M (sQ st f) (X f t) j)%C)).
  - change (mv M (Qi f) (mv M (sQ st f) (X f t)) i = X f t i). rewrite mv_mulmat. rewrite (mv_ext M _ unit_vec _ (X f t)) by auto. now apply mv_unit.
  - intros j Hj. rewrite csum_scal, csum_RtoC. specialize (Hnz j Hj). set (s := bsum N _) in *.
    change (proj M X (sQ st) f t j) with (mv M (sQ st f) (X f t) j). destruct (mv M (sQ st f) (X f t) j) as [u v]. destruct (Qi f i j) as [q r].
    unfold Cscal, RtoC. apply C_eq; cbn; field; auto.
Qed.
Lemma images_add : forall st (Qi : nat -> mat) mi y, (forall f i j, (f < F)%nat -> (i < M)%nat -> (j < M)%nat -> mulmat M (Qi f) (sQ st f) i j = unit_vec i j) ->
  images_of F M N T X st Qi mi = Some y -> adds_up F M N T X mi y.
Proof.
  intros st Qi mi y HQ H. unfold images_of in H. cbv zeta in H. apply guard_Some in H. destruct H as [Nz H].
  assert (Nz' : forall f t j, (f < F)%nat -> (t < T)%nat -> (j < M)%nat -> bsum N (fun n => sL st n f t * sG st n f j) <> 0) by (intros; eapply (all_nz3_spec _ _ _ _ Nz); eauto).
  destruct mi as [|z|]; [| |discriminate].
  - injection H as <-. split; [auto|]. intros i t f Hi Ht Hf. apply image_sum; auto.
  - set (i := if (z <? 0)%Z then (z + Z.of_nat M)%Z else z) in *. destruct ((0 <=? i) && (i <? Z.of_nat M))%Z eqn:E; [|discriminate]. injection H as <-.
    apply andb_true_iff in E. destruct E as [E1 E2]. apply Z.leb_le in E1. apply Z.ltb_lt in E2. exists (Z.to_nat i). assert (Hi : (Z.to_nat i < M)%nat) by lia.
    split; [auto|split].
    + rewrite Z2Nat.id by auto. unfold i. destruct (z <? 0)%Z; [right; f_equal; lia|now left].
    + intros t f Ht Hf. apply image_sum; auto.
Qed.
Lemma invs_left : forall inv Q Qi, is_inv inv -> invs inv F M Q = Some Qi -> forall f i j, (f < F)%nat -> (i < M)%nat -> (j < M)%nat -> mulmat M (Qi f) (Q f) i j = unit_vec i j.
Proof. intros inv Q Qi Hi H f i j Hf A B. exact (proj1 (Hi _ _ _ (for_all_f_Some _ _ _ H f Hf) i j A B)). Qed.
Lemma invs_right : forall inv Q Qi, is_inv inv -> invs inv F M Q = Some Qi -> forall f i j, (f < F)%nat -> (i < M)%nat -> (j < M)%nat -> mulmat M (Q f) (Qi f) i j = unit_vec i j.
Proof. intros inv Q Qi Hi H f i j Hf A B. exact (proj2 (Hi _ _ _ (for_all_f_Some _ _ _ H f Hf) i j A B)). Qed.
Lemma images_shares : forall st (Qi : nat -> mat) g, (forall f i j, (f < F)%nat -> (i < M)%nat -> (j < M)%nat -> mulmat M (sQ st f) (Qi f) i j = unit_vec i j) ->
  (forall n f t, (n < N)%nat -> (f < F)%nat -> (t < T)%nat -> 0 <= sL st n f t) -> (forall n f m, (n < N)%nat -> (f < F)%nat -> (m < M)%nat -> 0 <= sG st n f m) ->
  images_of F M N T X st Qi All = Some (ImagesAll g) ->
  exists a : nat -> nat -> nat -> nat -> R, forall f t m, (f < F)%nat -> (t < T)%nat -> (m < M)%nat ->
    bsum N (fun n => a n f t m) = 1 /\ forall n, (n < N)%nat -> 0 <= a n f t m <= 1 /\
    csum M (fun i => (sQ st f m i * g i t f n)%C) = Cscal (a n f t m) (csum M (fun i => (sQ st f m i * X f t i)%C)).
Proof.
  intros st Qi g HQ PL PG H. unfold images_of in H. cbv zeta in H. apply guard_Some in H. destruct H as [Nz H]. injection H as <-.
  exists (fun n f t m => sL st n f t * sG st n f m / bsum N (fun k => sL st k f t * sG st k f m)). intros f t m Hf Ht Hm. pose proof (all_nz3_spec _ _ _ _ Nz f t m Hf Ht Hm) as Ns. cbv beta in Ns.
  assert (Pn : forall n, (n < N)%nat -> 0 <= sL st n f t * sG st n f m) by (intros; apply Rmult_le_pos; auto).
  assert (Ps : 0 < bsum N (fun k => sL st k f t * sG st k f m)) by (pose proof (bsum_nonneg N _ Pn); lra).
  split; [unfold Rdiv; rewrite bsum_scal_r; now apply Rinv_r|]. intros n Hn. split.
  - split; [apply frac_nonneg; auto|]. apply (Rmult_le_reg_r (bsum N (fun k => sL st k f t * sG st k f m))); [auto|]. unfold Rdiv. rewrite Rmult_assoc, Rinv_l, Rmult_1_r, Rmult_1_l by auto.
    exact (bsum_term_le N (fun k => sL st k f t * sG st k f m) Pn n Hn).
  - set (v := fun j => (Cscal (/ bsum N (fun k => (sL st k f t * sG st k f j)%R)) (proj M X (sQ st) f t j) * RtoC (sL st n f t * sG st n f j))%C).
    transitivity (mv M (sQ st f) (mv M (Qi f) v) m).
    + unfold mv. apply csum_ext. intros i _. f_equal. apply csum_ext. intros j _. unfold v. ring.
    + rewrite mv_mulmat. rewrite (mv_ext M _ unit_vec v v) by auto. rewrite mv_unit by auto. unfold v. change (csum M (fun i => (sQ st f m i * X f t i)%C)) with (proj M X (sQ st) f t m).
      destruct (proj M X (sQ st) f t m) as [u w]. unfold Cscal, RtoC, Rdiv. apply C_eq; cbn; ring.
Qed.
End Images.

(** ** Two-dimensional indices *)
Lemma flat_lt : forall A B i, (0 < B)%nat -> (i < A * B)%nat -> (i / B < A)%nat /\ (i mod B < B)%nat.
Proof. intros A B i HB Hi. split; [apply Nat.div_lt_upper_bound; lia|apply Nat.mod_upper_bound; lia]. Qed.
Lemma mult2 : forall n1 n2 K1 K2 e (p c : nat -> nat -> R) (a : nat -> nat -> nat -> nat -> R) (w w' : nat -> nat -> R), (0 < n2)%nat -> (0 < K2)%nat -> 0 <= e ->
  (forall i j, (i < n1)%nat -> (j < n2)%nat -> 0 <= p i j /\ 0 <= c i j) ->
  (forall i j k l, (i < n1)%nat -> (j < n2)%nat -> (k < K1)%nat -> (l < K2)%nat -> 0 <= a i j k l) -> (forall k l, (k < K1)%nat -> (l < K2)%nat -> 0 <= w k l) ->
  let y w i j := bsum K1 (fun k => bsum K2 (fun l => w k l * a i j k l)) + c i j in
  let A k l := bsum n1 (fun i => bsum n2 (fun j => a i j k l * (p i j / y w i j ^ 2))) in
  let B k l := bsum n1 (fun i => bsum n2 (fun j => a i j k l * (1 / y w i j))) + e in
  (forall i j, (i < n1)%nat -> (j < n2)%nat -> 0 < y w i j) -> (forall k l, (k < K1)%nat -> (l < K2)%nat -> B k l <> 0) ->
  (forall k l, (k < K1)%nat -> (l < K2)%nat -> w' k l = w k l * sqrt (A k l / B k l)) -> (forall i j, (i < n1)%nat -> (j < n2)%nat -> y w' i j <> 0) ->
  (forall k l, (k < K1)%nat -> (l < K2)%nat -> 0 <= w' k l) /\
  bsum n1 (fun i => bsum n2 (fun j => cost (p i j) (y w' i j))) + e * bsum K1 (fun k => bsum K2 (fun l => w' k l)) <=
  bsum n1 (fun i => bsum n2 (fun j => cost (p i j) (y w i j))) + e * bsum K1 (fun k => bsum K2 (fun l => w k l)).
Proof.
  intros n1 n2 K1 K2 e p c a w w' Hn HK He Hpc Ha Hw y A B Hy HB Ew' Hy'.
  set (fa := fun i q => a (i / n2)%nat (i mod n2)%nat (q / K2)%nat (q mod K2)%nat).
  assert (Fy : forall v i, bsum (K1 * K2) (fun q => v (q / K2)%nat (q mod K2)%nat * fa i q) + c (i / n2)%nat (i mod n2)%nat = y v (i / n2)%nat (i mod n2)%nat).
  { intros v i. unfold y, fa. f_equal. exact (bsum_flat K1 K2 (fun k l => v k l * a (i / n2)%nat (i mod n2)%nat k l) HK). }
  assert (FA : forall q, bsum (n1 * n2) (fun i => fa i q * (p (i / n2)%nat (i mod n2)%nat / y w (i / n2)%nat (i mod n2)%nat ^ 2)) = A (q / K2)%nat (q mod K2)%nat).
  { intros q. unfold fa, A. exact (bsum_flat n1 n2 (fun i j => a i j (q / K2)%nat (q mod K2)%nat * (p i j / y w i j ^ 2)) Hn). }
  assert (FB : forall q, bsum (n1 * n2) (fun i => fa i q * (1 / y w (i / n2)%nat (i mod n2)%nat)) + e = B (q / K2)%nat (q mod K2)%nat).
  { intros q. unfold fa, B. f_equal. exact (bsum_flat n1 n2 (fun i j => a i j (q / K2)%nat (q mod K2)%nat * (1 / y w i j)) Hn). }
  destruct (mult_decreases (n1 * n2) (K1 * K2) e (fun i => p (i / n2)%nat (i mod n2)%nat) (fun i => c (i / n2)%nat (i mod n2)%nat) fa (fun q => w (q / K2)%nat (q mod K2)%nat)) with (w' := fun q => w' (q / K2)%nat (q mod K2)%nat) as [P D]; auto.
  - intros i Hi. apply flat_lt in Hi; auto. apply Hpc; tauto.
  - intros i q Hi Hq. apply flat_lt in Hi, Hq; auto. apply Ha; tauto.
  - intros q Hq. apply flat_lt in Hq; auto. apply Hw; tauto.
  - intros i Hi. apply flat_lt in Hi; auto. rewrite Fy. apply Hy; tauto.
  - intros q Hq. apply flat_lt in Hq; auto. rewrite (bsum_ext _ _ (fun i => fa i q * (1 / y w (i / n2)%nat (i mod n2)%nat))) by (intros i _; now rewrite Fy). rewrite FB. apply HB; tauto.
  - intros q Hq. apply flat_lt in Hq; auto. rewrite (Ew' _ _ (proj1 Hq) (proj2 Hq)). f_equal. f_equal. f_equal.
    + rewrite <- FA. apply bsum_ext. intros i _. now rewrite Fy.
    + rewrite <- FB. f_equal. apply bsum_ext. intros i _. now rewrite Fy.
  - intros i Hi. apply flat_lt in Hi; auto. rewrite Fy. apply Hy'; tauto.
  - split.
    + intros k l Hk Hl. specialize (P (k * K2 + l)%nat). cbv beta in P.
      replace ((k * K2 + l) / K2)%nat with k in P by (rewrite Nat.div_add_l by lia; rewrite Nat.div_small by auto; lia).
      replace ((k * K2 + l) mod K2)%nat with l in P by (rewrite Nat.add_comm, Nat.mod_add by lia; symmetry; now apply Nat.mod_small). apply P. nia.
    + cbv beta in D. rewrite (bsum_flat K1 K2 w' HK), (bsum_flat K1 K2 w HK) in D.
      rewrite (bsum_ext _ _ (fun i => cost (p (i / n2)%nat (i mod n2)%nat) (y w' (i / n2)%nat (i mod n2)%nat))) in D by (intros i _; now rewrite (Fy w')).
      rewrite (bsum_flat n1 n2 (fun i j => cost (p i j) (y w' i j)) Hn) in D.
      rewrite (bsum_ext (n1 * n2) _ (fun i => cost (p (i / n2)%nat (i mod n2)%nat) (y w (i / n2)%nat (i mod n2)%nat))) in D by (intros i _; now rewrite (Fy w)).
      rewrite (bsum_flat n1 n2 (fun i j => cost (p i j) (y w i j)) Hn) in D. exact D.
Qed.

(** ** The steps of fastmnmf *)
Section Steps.
Variables (F M N K T : nat) (eps : R) (X : nat -> nat -> nat -> C).
Hypotheses (He : 0 <= eps) (HM : (0 < M)%nat) (HK : (0 < K)%nat).
Definition nonneg3 (n m l : nat) (a : nat -> nat -> nat -> R) : Prop := forall i j k, (i < n)%nat -> (j < m)%nat -> (k < l)%nat -> 0 <= a i j k.
Definition signs (st : state) : Prop := nonneg3 N F K (sW st) /\ nonneg3 N K T (sH st) /\ nonneg3 N F M (sG st).
(** lambda and Y follow from the other arrays *)
Definition fine1 (st : state) : Prop := signs st /\ sL st = lambda K eps (sW st) (sH st) /\ sY st = model N 0 (sL st) (sG st).
Definition fitsum (st : state) : R := bsum F (fun f => bsum T (fun t => bsum M (fun m => cost (power M X (sQ st) f t m) (sY st f t m)))).

Lemma model_split : forall e1 e2 W H G f t m, model N e2 (lambda K e1 W H) G f t m = bsum N (fun n => bsum K (fun k => W n f k * (H n k t * G n f m))) + (e1 * bsum N (fun n => G n f m) + e2).
Proof.
  intros. unfold model, lambda. rewrite (bsum_ext N _ (fun n => bsum K (fun k => W n f k * (H n k t * G n f m)) + e1 * G n f m)).
  - rewrite bsum_plus, bsum_scal. ring.
  - intros n _. rewrite Rmult_plus_distr_r. f_equal. rewrite <- bsum_scal_r. apply bsum_ext. intros; ring.
Qed.
Lemma model_nonneg : forall e1 e2 W H G, 0 <= e1 -> 0 <= e2 -> nonneg3 N F K W -> nonneg3 N K T H -> nonneg3 N F M G -> forall f t m, (f < F)%nat -> (t < T)%nat -> (m < M)%nat -> 0 <= model N e2 (lambda K e1 W H) G f t m.
Proof.
  intros e1 e2 W H G H1 H2 PW PH PG f t m Hf Ht Hm. unfold model, lambda. assert (0 <= bsum N (fun n => (bsum K (fun k => W n f k * H n k t) + e1) * G n f m)); [|lra].
  apply bsum_nonneg. intros n Hn. apply Rmult_le_pos; [|auto]. assert (0 <= bsum K (fun k => W n f k * H n k t)); [|lra]. apply bsum_nonneg. intros k Hk. apply Rmult_le_pos; auto.
Qed.
Lemma power_nonneg : forall Q f t m, 0 <= power M X Q f t m.
Proof. intros. apply Cabs2_nonneg. Qed.
Lemma pos_of : forall r, 0 <= r -> r <> 0 -> 0 < r.
Proof. intros; lra. Qed.
Lemma ratio_ext : forall w a a' b b', a = a' -> b = b' -> w * sqrt (a / b) = w * sqrt (a' / b').
Proof. intros; now subst. Qed.

Lemma W_step : forall e1 e2 e st st1, 0 <= e1 -> 0 <= e2 -> 0 <= e -> signs st -> sL st = lambda K e1 (sW st) (sH st) -> sY st = model N e2 (sL st) (sG st) -> all_nz3 F T M (sY st) = true ->
  step_W F N K T e (tmp1 M X st) (tmp2 M st) st = Some st1 ->
  let Y1 := model N e2 (lambda K e1 (sW st1) (sH st1)) (sG st1) in
  all_nz3 F T M Y1 = true ->
  sQ st1 = sQ st /\ sH st1 = sH st /\ sG st1 = sG st /\ signs st1 /\
  bsum F (fun f => bsum T (fun t => bsum M (fun m => cost (power M X (sQ st) f t m) (Y1 f t m)))) + e * total3 N F K (sW st1) <= fitsum st + e * total3 N F K (sW st).
Proof.
  intros e1 e2 e st st1 P1 P2 Pe (PW & PH & PG) EL EY Nz H Y1 Nz1. unfold step_W in H. apply guard_Some in H. destruct H as [Nd H]. injection H as H.
  set (W1 := fun n f k => sW st n f k * sqrt (bsum T (fun t => sH st n k t * tmp1 M X st n f t) / (bsum T (fun t => sH st n k t * tmp2 M st n f t) + e))) in *.
  subst st1. cbn [sQ sH sG sW] in *.
  assert (Cy : forall w f t m, model N e2 (lambda K e1 w (sH st)) (sG st) f t m = bsum N (fun n => bsum K (fun k => w n f k * (sH st n k t * sG st n f m))) + (e1 * bsum N (fun n => sG st n f m) + e2)) by (intros; apply model_split).
  assert (Ysum : forall f t m, sY st f t m = bsum N (fun n => bsum K (fun k => sW st n f k * (sH st n k t * sG st n f m))) + (e1 * bsum N (fun n => sG st n f m) + e2)) by (intros; rewrite EY, EL; apply Cy).
  assert (Stp : forall f, (f < F)%nat -> (forall n k, (n < N)%nat -> (k < K)%nat -> 0 <= W1 n f k) /\
     bsum T (fun t => bsum M (fun m => cost (power M X (sQ st) f t m) (Y1 f t m))) + e * bsum N (fun n => bsum K (fun k => W1 n f k)) <=
     bsum T (fun t => bsum M (fun m => cost (power M X (sQ st) f t m) (sY st f t m))) + e * bsum N (fun n => bsum K (fun k => sW st n f k))).
  { intros f Hf. destruct (mult2 T M N K e (fun t m => power M X (sQ st) f t m) (fun t m => e1 * bsum N (fun n => sG st n f m) + e2) (fun t m n k => sH st n k t * sG st n f m) (fun n k => sW st n f k) (fun n k => W1 n f k)) as [Pn D]; auto.
    - intros t m Ht Hm. split; [apply power_nonneg|]. assert (0 <= e1 * bsum N (fun n => sG st n f m)); [|lra]. apply Rmult_le_pos; [auto|]. apply bsum_nonneg. auto.
    - intros t m n k Ht Hm Hn Hk. apply Rmult_le_pos; auto.
    - intros t m Ht Hm. rewrite <- Ysum. apply pos_of; [|now apply (all_nz3_spec _ _ _ _ Nz)]. rewrite EY, EL. now apply model_nonneg.
    - intros n k Hn Hk. pose proof (all_nz3_spec _ _ _ _ Nd n f k Hn Hf Hk) as Q. cbv beta in Q. intros Z. apply Q. rewrite <- Z. f_equal. apply bsum_ext. intros t Ht. unfold tmp2.
      rewrite <- bsum_scal. apply bsum_ext. intros m Hm. rewrite <- Ysum. ring.
    - intros n k Hn Hk. unfold W1. apply ratio_ext.
      + apply bsum_ext. intros t Ht. unfold tmp1. rewrite <- bsum_scal. apply bsum_ext. intros m Hm. rewrite <- Ysum. ring.
      + f_equal. apply bsum_ext. intros t Ht. unfold tmp2. rewrite <- bsum_scal. apply bsum_ext. intros m Hm. rewrite <- Ysum. ring.
    - intros t m Ht Hm. rewrite <- Cy. now apply (all_nz3_spec _ _ _ _ Nz1).
    - split; [exact Pn|]. cbv beta in D.
      rewrite (bsum_ext T (fun i => bsum M (fun j => cost (power M X (sQ st) f i j) (Y1 f i j))) (fun t => bsum M (fun m => cost (power M X (sQ st) f t m) (bsum N (fun n => bsum K (fun k => W1 n f k * (sH st n k t * sG st n f m))) + (e1 * bsum N (fun n => sG st n f m) + e2))))) by (intros t _; apply bsum_ext; intros m _; unfold Y1; now rewrite Cy).
      rewrite (bsum_ext T (fun i => bsum M (fun j => cost (power M X (sQ st) f i j) (sY st f i j))) (fun t => bsum M (fun m => cost (power M X (sQ st) f t m) (bsum N (fun n => bsum K (fun k => sW st n f k * (sH st n k t * sG st n f m))) + (e1 * bsum N (fun n => sG st n f m) + e2))))) by (intros t _; apply bsum_ext; intros m _; now rewrite Ysum).
      exact D. }
  split; [auto|split; [auto|split; [auto|split]]].
  - split; [|split; auto]. intros n f k Hn Hf Hk. now apply Stp.
  - unfold fitsum, total3. rewrite (bsum_swap N F), (bsum_swap N F), <- !bsum_scal, <- !bsum_plus. apply bsum_le. intros f Hf. apply Stp; auto.
Qed.

Lemma H_step : forall e1 e2 e st st1, 0 <= e1 -> 0 <= e2 -> 0 <= e -> signs st -> sL st = lambda K e1 (sW st) (sH st) -> sY st = model N e2 (sL st) (sG st) -> all_nz3 F T M (sY st) = true ->
  step_H F N K T e (tmp1 M X st) (tmp2 M st) st = Some st1 ->
  let Y1 := model N e2 (lambda K e1 (sW st1) (sH st1)) (sG st1) in
  all_nz3 F T M Y1 = true ->
  sQ st1 = sQ st /\ sW st1 = sW st /\ sG st1 = sG st /\ signs st1 /\
  bsum F (fun f => bsum T (fun t => bsum M (fun m => cost (power M X (sQ st) f t m) (Y1 f t m)))) + e * total3 N K T (sH st1) <= fitsum st + e * total3 N K T (sH st).
Proof.
  intros e1 e2 e st st1 P1 P2 Pe (PW & PH & PG) EL EY Nz H Y1 Nz1. unfold step_H in H. apply guard_Some in H. destruct H as [Nd H]. injection H as H.
  set (H1 := fun n k t => sH st n k t * sqrt (bsum F (fun f => sW st n f k * tmp1 M X st n f t) / (bsum F (fun f => sW st n f k * tmp2 M st n f t) + e))) in *.
  subst st1. cbn [sQ sH sG sW] in *.
  assert (Cy : forall h f t m, model N e2 (lambda K e1 (sW st) h) (sG st) f t m = bsum N (fun n => bsum K (fun k => h n k t * (sW st n f k * sG st n f m))) + (e1 * bsum N (fun n => sG st n f m) + e2)).
  { intros. rewrite model_split. f_equal. apply bsum_ext. intros n _. apply bsum_ext. intros k _. ring. }
  assert (Ysum : forall f t m, sY st f t m = bsum N (fun n => bsum K (fun k => sH st n k t * (sW st n f k * sG st n f m))) + (e1 * bsum N (fun n => sG st n f m) + e2)) by (intros; rewrite EY, EL; apply Cy).
  assert (Stp : forall t, (t < T)%nat -> (forall n k, (n < N)%nat -> (k < K)%nat -> 0 <= H1 n k t) /\
     bsum F (fun f => bsum M (fun m => cost (power M X (sQ st) f t m) (Y1 f t m))) + e * bsum N (fun n => bsum K (fun k => H1 n k t)) <=
     bsum F (fun f => bsum M (fun m => cost (power M X (sQ st) f t m) (sY st f t m))) + e * bsum N (fun n => bsum K (fun k => sH st n k t))).
  { intros t Ht. destruct (mult2 F M N K e (fun f m => power M X (sQ st) f t m) (fun f m => e1 * bsum N (fun n => sG st n f m) + e2) (fun f m n k => sW st n f k * sG st n f m) (fun n k => sH st n k t) (fun n k => H1 n k t)) as [Pn D]; auto.
    - intros f m Hf Hm. split; [apply power_nonneg|]. assert (0 <= e1 * bsum N (fun n => sG st n f m)); [|lra]. apply Rmult_le_pos; [auto|]. apply bsum_nonneg. auto.
    - intros f m n k Hf Hm Hn Hk. apply Rmult_le_pos; auto.
    - intros f m Hf Hm. rewrite <- Ysum. apply pos_of; [|now apply (all_nz3_spec _ _ _ _ Nz)]. rewrite EY, EL. now apply model_nonneg.
    - intros n k Hn Hk. pose proof (all_nz3_spec _ _ _ _ Nd n k t Hn Hk Ht) as Q. cbv beta in Q. intros Z. apply Q. rewrite <- Z. f_equal. apply bsum_ext. intros f Hf. unfold tmp2.
      rewrite <- bsum_scal. apply bsum_ext. intros m Hm. rewrite <- Ysum. ring.
    - intros n k Hn Hk. unfold H1. apply ratio_ext.
      + apply bsum_ext. intros f Hf. unfold tmp1. rewrite <- bsum_scal. apply bsum_ext. intros m Hm. rewrite <- Ysum. ring.
      + f_equal. apply bsum_ext. intros f Hf. unfold tmp2. rewrite <- bsum_scal. apply bsum_ext. intros m Hm. rewrite <- Ysum. ring.
    - intros f m Hf Hm. rewrite <- Cy. now apply (all_nz3_spec _ _ _ _ Nz1).
    - split; [exact Pn|]. cbv beta in D.
      rewrite (bsum_ext F (fun i => bsum M (fun j => cost (power M X (sQ st) i t j) (Y1 i t j))) (fun f => bsum M (fun m => cost (power M X (sQ st) f t m) (bsum N (fun n => bsum K (fun k => H1 n k t * (sW st n f k * sG st n f m))) + (e1 * bsum N (fun n => sG st n f m) + e2))))) by (intros f _; apply bsum_ext; intros m _; unfold Y1; now rewrite Cy).
      rewrite (bsum_ext F (fun i => bsum M (fun j => cost (power M X (sQ st) i t j) (sY st i t j))) (fun f => bsum M (fun m => cost (power M X (sQ st) f t m) (bsum N (fun n => bsum K (fun k => sH st n k t * (sW st n f k * sG st n f m))) + (e1 * bsum N (fun n => sG st n f m) + e2))))) by (intros f _; apply bsum_ext; intros m _; now rewrite Ysum).
      exact D. }
  split; [auto|split; [auto|split; [auto|split]]].
  - split; [auto|split; auto]. intros n k t Hn Hk Ht. now apply Stp.
  - assert (Tot : forall h, total3 N K T h = bsum T (fun t => bsum N (fun n => bsum K (fun k => h n k t)))).
    { intros h. unfold total3. rewrite <- (bsum_swap N T). apply bsum_ext. intros n _. apply bsum_swap. }
    unfold fitsum. rewrite !Tot, (bsum_swap F T), (bsum_swap F T), <- !bsum_scal, <- !bsum_plus. apply bsum_le. intros t Ht. apply Stp; auto.
Qed.

Lemma L_nonneg : forall e1 st, 0 <= e1 -> signs st -> sL st = lambda K e1 (sW st) (sH st) -> nonneg3 N F T (sL st).
Proof.
  intros e1 st P1 (PW & PH & PG) EL n f t Hn Hf Ht. rewrite EL. unfold lambda. assert (0 <= bsum K (fun k => sW st n f k * sH st n k t)); [|lra]. apply bsum_nonneg. intros k Hk. apply Rmult_le_pos; auto.
Qed.
Lemma G_step1 : forall st st1, fine1 st -> update_G1 F M N T eps X st = Some st1 -> all_nz3 F T M (sY st1) = true ->
  sQ st1 = sQ st /\ sW st1 = sW st /\ sH st1 = sH st /\ fine1 st1 /\ fitsum st1 + eps * total3 N F M (sG st1) <= fitsum st + eps * total3 N F M (sG st).
Proof.
  intros st st1 ((PW & PH & PG) & EL & EY) H Nz1. unfold update_G1 in H. apply guard_Some in H. destruct H as [Nz H]. apply guard_Some in H. destruct H as [Nd H]. injection H as H.
  pose proof (L_nonneg eps st He (conj PW (conj PH PG)) EL) as PL.
  set (G1 := fun n f m => sG st n f m * sqrt (bsum T (fun t => sL st n f t * (power M X (sQ st) f t m / sY st f t m ^ 2)) / (bsum T (fun t => sL st n f t * (1 / sY st f t m)) + eps))) in *.
  subst st1. cbn [sQ sH sG sW sL sY] in *.
  assert (Ysum : forall f t m, sY st f t m = bsum N (fun n => sG st n f m * sL st n f t) + 0). { intros. rewrite EY. unfold model. f_equal. apply bsum_ext. intros; ring. }
  assert (Cy : forall f t m, model N 0 (sL st) G1 f t m = bsum N (fun n => G1 n f m * sL st n f t) + 0). { intros. unfold model. f_equal. apply bsum_ext. intros; ring. }
  assert (Stp : forall f m, (f < F)%nat -> (m < M)%nat -> (forall n, (n < N)%nat -> 0 <= G1 n f m) /\
     bsum T (fun t => cost (power M X (sQ st) f t m) (model N 0 (sL st) G1 f t m)) + eps * bsum N (fun n => G1 n f m) <=
     bsum T (fun t => cost (power M X (sQ st) f t m) (sY st f t m)) + eps * bsum N (fun n => sG st n f m)).
  { intros f m Hf Hm. destruct (mult_decreases T N eps (fun t => power M X (sQ st) f t m) (fun _ => 0) (fun t n => sL st n f t) (fun n => sG st n f m) He) with (w' := fun n => G1 n f m) as [Pn D]; auto.
    - intros t Ht. split; [apply power_nonneg|lra].
    - intros t Ht. rewrite <- Ysum. apply pos_of; [|now apply (all_nz3_spec _ _ _ _ Nz)]. rewrite EY, EL. apply model_nonneg; auto. lra.
    - intros n Hn. pose proof (all_nz3_spec _ _ _ _ Nd n f m Hn Hf Hm) as Q. cbv beta in Q. intros Z. apply Q. rewrite <- Z. f_equal. apply bsum_ext. intros t Ht. now rewrite <- Ysum.
    - intros n Hn. unfold G1. apply ratio_ext; [|f_equal]; apply bsum_ext; intros t Ht; now rewrite <- Ysum.
    - intros t Ht. rewrite <- Cy. now apply (all_nz3_spec _ _ _ _ Nz1).
    - split; [exact Pn|]. cbv beta in D.
      rewrite (bsum_ext T (fun i => cost _ (model N 0 (sL st) G1 f i m)) (fun t => cost (power M X (sQ st) f t m) (bsum N (fun n => G1 n f m * sL st n f t) + 0))) by (intros t _; now rewrite Cy).
      rewrite (bsum_ext T (fun i => cost _ (sY st f i m)) (fun t => cost (power M X (sQ st) f t m) (bsum N (fun n => sG st n f m * sL st n f t) + 0))) by (intros t _; now rewrite Ysum).
      exact D. }
  split; [auto|split; [auto|split; [auto|split]]].
  - split; [|split; auto]. split; [auto|split; [auto|]]. intros n f m Hn Hf Hm. now apply Stp.
  - assert (Tot : forall g, total3 N F M g = bsum F (fun f => bsum M (fun m => bsum N (fun n => g n f m)))).
    { intros g. unfold total3. rewrite (bsum_swap N F). apply bsum_ext. intros f _. apply bsum_swap. }
    unfold fitsum. cbn [sQ sY]. rewrite !Tot, <- !bsum_scal, <- !bsum_plus. apply bsum_le. intros f Hf. rewrite (bsum_swap T M), (bsum_swap T M), <- !bsum_scal, <- !bsum_plus. apply bsum_le. intros m Hm. apply Stp; auto.
Qed.
End Steps.

(** ** The row updates of fastmnmf2 *)
Lemma Cabs2_pos : forall z, z <> C0 -> 0 < Cabs2 z.
Proof. intros z H. pose proof (Cabs2_nonneg z). destruct (Rle_lt_or_eq_dec 0 (Cabs2 z)); auto. exfalso. apply H. now apply Cabs2_zero. Qed.
Lemma Cabs2_nz : forall z, 0 < Cabs2 z -> z <> C0.
Proof. intros z H ->. unfold Cabs2 in H. cbn in H. lra. Qed.
Lemma Conj_Cscal : forall r z, Conj (Cscal r z) = Cscal r (Conj z).
Proof. intros r [a b]. apply C_eq; cbn; ring. Qed.

Section Row2.
Variables (solve : nat -> mat -> (nat -> C) -> option (nat -> C)) (M T : nat) (X : nat -> nat -> nat -> C).
Hypothesis Hsolve : is_solve solve.
Definition qf (Y : nat -> nat -> nat -> R) (m f : nat) (u : nat -> C) : R := / INR T * bsum T (fun t => 1 / Y f t m * Cabs2 (csum M (fun j => (u j * X f t j)%C))).
Lemma Q_row_facts : forall (Y : nat -> nat -> nat -> R) m f Q x row, (m < M)%nat -> (forall t, (t < T)%nat -> 0 < Y f t m) ->
  solve M (QV M Q (cov T X Y m f)) (unit_vec m) = Some x -> Q_row M 0 (cov T X Y m f) x = Some row -> det M Q <> C0 ->
  det M (set_row Q m row) <> C0 /\ qf Y m f row = 1 /\
  forall u, det M (set_row Q m u) <> C0 -> qf Y m f row - ln (Cabs2 (det M (set_row Q m row))) <= qf Y m f u - ln (Cabs2 (det M (set_row Q m u))).
Proof.
  intros Y m f Q x row Hm HY Hx Hrow HD. set (rho t := if (t <? T)%nat then 1 / Y f t m else 0). set (xx c t := X f t c).
  assert (Hrho : forall t, 0 <= rho t). { intros t. unfold rho. destruct (Nat.ltb_spec t T); [|lra]. apply frac_nonneg; [lra|auto]. }
  set (V := fun c d => Cscal (/ INR T) (csum T (fun t => (Cscal (rho t) (xx c t) * Conj (xx d t))%C))) in *.
  assert (EV : forall i j, cov T X Y m f i j = V i j).
  { intros i j. unfold cov, V. f_equal. apply csum_ext. intros t Ht. unfold rho, xx. destruct (Nat.ltb_spec t T); [|lia]. rewrite !Cscal_RtoC. ring. }
  assert (Eq : forall u, qf Y m f u = q M T rho xx u).
  { intros u. unfold qf, q. f_equal. apply bsum_ext. intros t Ht. unfold rho, xx. destruct (Nat.ltb_spec t T); [|lia]. reflexivity. }
  destruct (Hsolve _ _ _ _ Hx) as [Hinv Hy].
  assert (EQ : forall i d, QV M Q (cov T X Y m f) i d = csum M (fun c => (Q i c * V c d)%C)) by (intros; unfold QV; apply csum_ext; intros; now rewrite EV).
  assert (Hinv' : invertible M (fun i d => csum M (fun c => (Q i c * V c d)%C))).
  { destruct Hinv as (B & HB). exists B. intros i j Hi Hj. destruct (HB i j Hi Hj) as [E1 E2]. split; [rewrite <- E1|rewrite <- E2]; unfold mulmat; apply csum_ext; intros k Hk; now rewrite EQ. }
  assert (Hy' : forall i, (i < M)%nat -> csum M (fun j => (csum M (fun c => (Q i c * V c j)%C) * x j)%C) = unit_vec m i).
  { intros i Hi. rewrite <- (Hy i Hi). apply csum_ext. intros j Hj. now rewrite EQ. }
  (* the row *)
  pose proof (q_w_pos M T rho xx Hrho Q m x Hm Hy') as Pq. set (qw := q M T rho xx (fun d => Conj (x d))) in *.
  assert (Ed : csum M (fun i => csum M (fun j => (Conj (x i) * cov T X Y m f i j * x j)%C)) = RtoC qw).
  { unfold qw. rewrite <- (form_q M T rho xx). unfold form. rewrite csum_swap. apply csum_ext. intros d _. rewrite <- csum_scal_r. apply csum_ext. intros c _. rewrite Conj_conj, EV. reflexivity. }
  unfold Q_row in Hrow. rewrite Ed in Hrow. rewrite csqrt_real in Hrow by lra. replace (RtoC (sqrt qw) + RtoC 0)%C with (RtoC (sqrt qw)) in Hrow by (apply C_eq; cbn; ring).
  apply guard_Some in Hrow. destruct Hrow as [_ Hrow]. injection Hrow as Hrow. assert (Psq : 0 < sqrt qw) by (apply sqrt_lt_R0; auto).
  pose proof (normalised M T rho xx Hrho Q m x Hm Hy') as No. pose proof (q_w' M T rho xx Hrho Q m x Hm Hy') as Q1.
  pose proof (D_new M T rho xx Hrho Q m x Hm Hinv' Hy' (det M) (det_alternating M)) as Dn.
  pose proof (row_best M T rho xx Hrho Q m x Hm Hinv' Hy' (det M) (det_alternating M) HD) as Best. cbv zeta beta in *.
  set (w' := fun d => Cdiv (Conj (x d)) (csqrt (form M (fun c d0 => Cscal (/ INR T) (csum T (fun t => (Cscal (rho t) (xx c t) * Conj (xx d0 t))%C))) (fun d0 => Conj (x d0)) (fun d0 => Conj (x d0))))) in *.
  assert (Er : forall j, row j = w' j).
  { intros j. rewrite <- Hrow. rewrite Cdiv_real by lra. rewrite Conj_Cscal. unfold w', qw. rewrite (form_q M T rho xx). fold qw. rewrite csqrt_real by lra. rewrite Cdiv_real by lra. reflexivity. }
  assert (Es : det M (set_row Q m row) = det M (set_row Q m w')) by (apply det_ext; intros i j _ _; unfold set_row; destruct (Nat.eqb i m); auto).
  assert (Eqr : qf Y m f row = q M T rho xx w'). { rewrite Eq. unfold q. f_equal. apply bsum_ext. intros t _. f_equal. f_equal. apply csum_ext. intros c _. now rewrite Er. }
  rewrite Es, Eqr. split; [|split].
  - apply Cabs2_nz. rewrite Dn. apply Rmult_lt_0_compat; [now apply Cabs2_pos|exact Pq].
  - exact Q1.
  - intros u Hu. rewrite Eq. now apply Best.
Qed.
End Row2.

Lemma bsum_one : forall n s f g, (s < n)%nat -> (forall i, (i < n)%nat -> i <> s -> f i = g i) -> bsum n f - bsum n g = f s - g s.
Proof. intros n s f g Hs H. rewrite <- bsum_minus. rewrite (bsum_delta n s); auto. intros i Hi Ne. rewrite H by auto. ring. Qed.

Section Steps2.
Variables (solve : nat -> mat -> (nat -> C) -> option (nat -> C)) (F M N K T : nat) (eps : R) (X : nat -> nat -> nat -> C).
Hypotheses (Hsolve : is_solve solve) (He : 0 <= eps) (HM : (0 < M)%nat) (HK : (0 < K)%nat) (HT : (0 < T)%nat).
Definition dets (Q : nat -> mat) : Prop := forall f, (f < F)%nat -> det M (Q f) <> C0.
Definition total (st : state) : R := fitsum F M T X st - INR T * bsum F (fun f => ln (Cabs2 (det M (sQ st f)))).

Lemma Q_step2 : forall st m st', (m < M)%nat -> (forall f t, (f < F)%nat -> (t < T)%nat -> 0 < sY st f t m) -> update_Q2 solve F M T X st m = Some st' -> dets (sQ st) ->
  dets (sQ st') /\ sG st' = sG st /\ sW st' = sW st /\ sH st' = sH st /\ sL st' = sL st /\ sY st' = sY st /\ total st' <= total st /\
  (forall f, (f < F)%nat -> qf M T X (sY st') m f (sQ st' f m) = 1).
Proof.
  intros st m st' Hm HY H HD. unfold update_Q2 in H. apply guard_Some in H. destruct H as [_ H]. destruct (for_all_f F _) as [Q'|] eqn:E; [|discriminate]. cbn [bind] in H. injection H as <-.
  cbn [sQ sG sW sH sL sY]. assert (PT : 0 < INR T) by (apply lt_0_INR; auto).
  assert (Rw : forall f, (f < F)%nat -> exists row, Q' f = set_row (sQ st f) m row /\ det M (set_row (sQ st f) m row) <> C0 /\ qf M T X (sY st) m f row = 1 /\
     qf M T X (sY st) m f row - ln (Cabs2 (det M (set_row (sQ st f) m row))) <= qf M T X (sY st) m f (sQ st f m) - ln (Cabs2 (det M (sQ st f)))).
  { intros f Hf. pose proof (for_all_f_Some _ _ _ E f Hf) as Ef. cbv beta zeta in Ef. destruct (solve _ _ _) as [x|] eqn:Ex; [|discriminate]. cbn [bind] in Ef.
    destruct (Q_row _ _ _ _) as [row|] eqn:Er; [|discriminate]. cbn [bind] in Ef. injection Ef as Ef. exists row. split; [auto|].
    destruct (Q_row_facts solve M T X Hsolve _ _ _ _ _ _ Hm (fun t Ht => HY f t Hf Ht) Ex Er (HD f Hf)) as (D1 & D2 & D3). split; [auto|split; [auto|]].
    specialize (D3 (sQ st f m)). assert (Es : det M (set_row (sQ st f) m (sQ st f m)) = det M (sQ st f)) by (apply det_ext; intros i j _ _; unfold set_row; destruct (Nat.eqb_spec i m); congruence).
    rewrite Es in D3. apply D3. now apply HD. }
  split; [|split; [auto|split; [auto|split; [auto|split; [auto|split; [auto|split]]]]]].
  - intros f Hf. destruct (Rw f Hf) as (row & -> & D & _). auto.
  - unfold total, fitsum. cbn [sQ sY]. rewrite <- !bsum_scal, <- !bsum_minus. apply bsum_le. intros f Hf. destruct (Rw f Hf) as (row & Eq & D & Q1 & Best). rewrite (bsum_swap T M), (bsum_swap T M).
    pose proof (bsum_one M m (fun j => bsum T (fun t => cost (power M X Q' f t j) (sY st f t j))) (fun j => bsum T (fun t => cost (power M X (sQ st) f t j) (sY st f t j))) Hm) as Ch.
    assert (Ot : forall i, (i < M)%nat -> i <> m -> bsum T (fun t => cost (power M X Q' f t i) (sY st f t i)) = bsum T (fun t => cost (power M X (sQ st) f t i) (sY st f t i))).
    { intros i Hi Ne. apply bsum_ext. intros t _. f_equal. unfold power, proj. f_equal. apply csum_ext. intros j _. rewrite Eq. unfold set_row. destruct (Nat.eqb_spec i m); [congruence|reflexivity]. }
    specialize (Ch Ot). cbv beta in Ch.
    assert (Df : bsum T (fun t => cost (power M X Q' f t m) (sY st f t m)) - bsum T (fun t => cost (power M X (sQ st) f t m) (sY st f t m)) = INR T * (qf M T X (sY st) m f row - qf M T X (sY st) m f (sQ st f m))).
    { unfold qf. rewrite <- Rmult_minus_distr_l, <- Rmult_assoc, Rinv_r, Rmult_1_l by lra. rewrite <- !bsum_minus. apply bsum_ext. intros t Ht. unfold cost, power, proj. rewrite Eq.
      rewrite (csum_ext M (fun j => (set_row (sQ st f) m row m j * X f t j)%C) (fun j => (row j * X f t j)%C)) by (intros; unfold set_row; now rewrite Nat.eqb_refl). unfold Rdiv. ring. }
    rewrite Eq. assert (INR T * (qf M T X (sY st) m f row - ln (Cabs2 (det M (set_row (sQ st f) m row)))) <= INR T * (qf M T X (sY st) m f (sQ st f m) - ln (Cabs2 (det M (sQ st f))))) by (apply Rmult_le_compat_l; lra).
    lra.
  - intros f Hf. destruct (Rw f Hf) as (row & Eq & _ & Q1 & _). rewrite <- Q1. unfold qf. f_equal. apply bsum_ext. intros t' _. f_equal. f_equal. apply csum_ext. intros j _. rewrite Eq. unfold set_row. now rewrite Nat.eqb_refl.
Qed.
Lemma Q_steps2 : forall l st st', (forall m, In m l -> (m < M)%nat) -> (forall f t m, (f < F)%nat -> (t < T)%nat -> (m < M)%nat -> 0 < sY st f t m) -> foldM (update_Q2 solve F M T X) l st = Some st' -> dets (sQ st) ->
  dets (sQ st') /\ sG st' = sG st /\ sW st' = sW st /\ sH st' = sH st /\ sL st' = sL st /\ sY st' = sY st /\ total st' <= total st.
Proof.
  induction l as [|m l IH]; intros st st' Hl HY H HD; cbn [foldM] in H.
  - injection H as <-. repeat split; auto. lra.
  - destruct (update_Q2 _ _ _ _ _ st m) as [s1|] eqn:E; [|discriminate]. cbn [bind] in H.
    destruct (Q_step2 st m s1 (Hl m (or_introl eq_refl)) (fun f t Hf Ht => HY f t m Hf Ht (Hl m (or_introl eq_refl))) E HD) as (D1 & EG & EW & EH & EL & EY & Le & _).
    destruct (IH s1 st') as (D2 & EG2 & EW2 & EH2 & EL2 & EY2 & Le2); auto; [intros; apply Hl; now right|intros; rewrite EY; auto|].
    rewrite EG2, EW2, EH2, EL2, EY2, EG, EW, EH, EL, EY. repeat split; auto. lra.
Qed.

Definition shared (G : nat -> nat -> nat -> R) : Prop := forall n f m, G n f m = G n 0%nat m.
(** lambda and Y follow from the other arrays, as after every update *)
Definition fine2 (e1 e2 : R) (st : state) : Prop := signs F M N K T st /\ shared (sG st) /\ sL st = lambda K e1 (sW st) (sH st) /\ sY st = model N e2 (sL st) (sG st).
Lemma G_step2 : forall st st1, fine2 eps eps st -> update_G2 F M N T eps X st = Some st1 -> all_nz3 F T M (sY st1) = true ->
  sQ st1 = sQ st /\ sW st1 = sW st /\ sH st1 = sH st /\ fine2 eps eps st1 /\ fitsum F M T X st1 <= fitsum F M T X st.
Proof.
  intros st st1 ((PW & PH & PG) & Sh & EL & EY) H Nz1. unfold update_G2 in H. apply guard_Some in H. destruct H as [Nz H]. apply guard_Some in H. destruct H as [Nd H]. injection H as H.
  pose proof (L_nonneg F M N K T eps st He (conj PW (conj PH PG)) EL) as PL.
  set (G1 := fun n f m => sG st n f m * sqrt (bsum F (fun f => bsum T (fun t => sL st n f t * (power M X (sQ st) f t m / sY st f t m ^ 2))) / bsum F (fun f => bsum T (fun t => sL st n f t * (1 / sY st f t m))))) in *.
  subst st1. cbn [sQ sH sG sW sL sY] in *.
  assert (Sh1 : shared G1) by (intros n f m; unfold G1; now rewrite Sh).
  assert (Cy : forall G, shared G -> forall f t m, model N eps (sL st) G f t m = bsum N (fun n => bsum 1 (fun l => G n 0%nat m * sL st n f t)) + eps). { intros G HG f t m. unfold model. f_equal. apply bsum_ext. intros n _. cbn. rewrite HG. ring. }
  assert (Ysum : forall f t m, sY st f t m = bsum N (fun n => bsum 1 (fun l => sG st n 0%nat m * sL st n f t)) + eps) by (intros; rewrite EY; now apply Cy).
  assert (PG1 : forall n f m, (n < N)%nat -> (f < F)%nat -> (m < M)%nat -> 0 <= G1 n f m) by (intros; unfold G1; apply Rmult_le_pos; [auto|apply sqrt_pos]).
  assert (Stp : forall m, (m < M)%nat ->
     bsum F (fun f => bsum T (fun t => cost (power M X (sQ st) f t m) (model N eps (sL st) G1 f t m))) <= bsum F (fun f => bsum T (fun t => cost (power M X (sQ st) f t m) (sY st f t m)))).
  { intros m Hm. destruct (Nat.eq_dec F 0) as [Z|NF]; [rewrite bsum_zero_ext by (intros; lia); rewrite bsum_zero_ext by (intros; lia); lra|].
    destruct (mult2 F T N 1 0 (fun f t => power M X (sQ st) f t m) (fun _ _ => eps) (fun f t n l => sL st n f t) (fun n l => sG st n 0%nat m) (fun n l => G1 n 0%nat m)) as [_ D]; auto.
    - lra.
    - intros f t Hf Ht. split; [apply power_nonneg|lra].
    - intros n l Hn _. apply PG; auto; lia.
    - intros f t Hf Ht. rewrite <- Ysum. apply pos_of; [|now apply (all_nz3_spec _ _ _ _ Nz)]. rewrite EY, EL. apply (model_nonneg F M N K T); auto.
    - intros n l Hn _. pose proof (all_nz2_spec _ _ _ Nd n m Hn Hm) as Q. cbv beta in Q. intros Z. apply Q. rewrite <- Z, Rplus_0_r. apply bsum_ext. intros f Hf. apply bsum_ext. intros t Ht. now rewrite <- Ysum.
    - intros n l Hn _. unfold G1. apply ratio_ext; rewrite ?Rplus_0_r; apply bsum_ext; intros f Hf; apply bsum_ext; intros t Ht; now rewrite <- Ysum.
    - intros f t Hf Ht. rewrite <- (Cy G1 Sh1). now apply (all_nz3_spec _ _ _ _ Nz1).
    - cbv beta in D. rewrite !Rmult_0_l, !Rplus_0_r in D.
      rewrite (bsum_ext F (fun i => bsum T (fun j => cost _ (model N eps (sL st) G1 i j m))) (fun f => bsum T (fun t => cost (power M X (sQ st) f t m) (bsum N (fun n => bsum 1 (fun l => G1 n 0%nat m * sL st n f t)) + eps)))) by (intros f _; apply bsum_ext; intros t _; now rewrite (Cy G1 Sh1)).
      rewrite (bsum_ext F (fun i => bsum T (fun j => cost _ (sY st i j m))) (fun f => bsum T (fun t => cost (power M X (sQ st) f t m) (bsum N (fun n => bsum 1 (fun l => sG st n 0%nat m * sL st n f t)) + eps)))) by (intros f _; apply bsum_ext; intros t _; now rewrite Ysum).
      exact D. }
  split; [auto|split; [auto|split; [auto|split]]].
  - split; [|split; auto]. split; [auto|split; auto].
  - unfold fitsum. cbn [sQ sY].
    rewrite (bsum_ext F (fun f => bsum T (fun t => bsum M _)) (fun f => bsum M (fun m => bsum T (fun t => cost (power M X (sQ st) f t m) (model N eps (sL st) G1 f t m))))) by (intros; apply bsum_swap).
    rewrite (bsum_ext F (fun f => bsum T (fun t => bsum M _)) (fun f => bsum M (fun m => bsum T (fun t => cost (power M X (sQ st) f t m) (sY st f t m))))) by (intros; apply bsum_swap).
    rewrite (bsum_swap F M), (bsum_swap F M). apply bsum_le. exact Stp.
Qed.
End Steps2.

(** ** Reachable states *)
Lemma div_nonneg : forall a b, 0 <= a -> 0 <= b -> 0 <= a / b.
Proof. intros a b Ha Hb. destruct (Req_dec b 0) as [->|]; [unfold Rdiv; rewrite Rinv_0; lra|apply frac_nonneg; lra]. Qed.
Lemma phi_nonneg : forall M Q f, 0 <= phi M Q f.
Proof.
  intros. apply div_nonneg; [|apply pos_INR]. apply bsum_nonneg. intros i _. apply bsum_nonneg. intros j _. destruct (Q f i j) as [a b]. cbn. nra.
Qed.
Lemma G_init_nonneg : forall N g_eps, 0 <= g_eps -> forall n f m, 0 <= G_init N g_eps n f m.
Proof. intros. unfold G_init. destruct (Nat.eqb _ _); lra. Qed.

Section Reach.
Variables (solve : nat -> mat -> (nat -> C) -> option (nat -> C)) (pinv : nat -> mat -> mat) (F M N K T : nat) (eps g_eps : R) (X : nat -> nat -> nat -> C).
Hypotheses (He : 0 <= eps) (Hg : 0 <= g_eps).
Notation signs := (signs F M N K T).
Notation fine1 := (fine1 F M N K T eps).
Notation fine2 := (fine2 F M N K T).

Lemma step_W_signs : forall e t1 t2 st st', step_W F N K T e t1 t2 st = Some st' -> signs st -> signs st' /\ sQ st' = sQ st /\ sG st' = sG st /\ sL st' = sL st /\ sY st' = sY st /\ sH st' = sH st.
Proof.
  intros e t1 t2 st st' H (A & B & D). apply guard_Some in H. destruct H as [_ H]. injection H as <-. cbn. repeat split; auto. intros n f k Hn Hf Hk. cbn. apply Rmult_le_pos; [now apply A|apply sqrt_pos].
Qed.
Lemma step_H_signs : forall e t1 t2 st st', step_H F N K T e t1 t2 st = Some st' -> signs st -> signs st' /\ sQ st' = sQ st /\ sG st' = sG st /\ sL st' = sL st /\ sY st' = sY st /\ sW st' = sW st.
Proof.
  intros e t1 t2 st st' H (A & B & D). apply guard_Some in H. destruct H as [_ H]. injection H as <-. cbn. repeat split; auto. intros n f k Hn Hf Hk. cbn. apply Rmult_le_pos; [now apply B|apply sqrt_pos].
Qed.
Lemma refresh1_fine : forall st, signs st -> fine1 (refresh1 N K eps st).
Proof. intros st H. split; [exact H|split; reflexivity]. Qed.
Lemma refresh2_fine : forall st, signs st -> shared (sG st) -> fine2 eps eps (refresh2 N K eps st).
Proof. intros st H S. split; [exact H|split; [exact S|split; reflexivity]]. Qed.

Lemma WH1_fine : forall acc st st', fine1 st -> update_WH1 F M N K T eps X acc st = Some st' -> fine1 st' /\ sQ st' = sQ st /\ sG st' = sG st.
Proof.
  intros acc st st' (S & _ & _) H. unfold update_WH1 in H. apply guard_Some in H. destruct H as [_ H]. destruct (step_W _ _ _ _ _ _ _ _) as [s1|] eqn:E1; [|discriminate]. cbn [bind] in H.
  apply guard_Some in H. destruct H as [_ H]. destruct (step_H _ _ _ _ _ _ _ _) as [s3|] eqn:E3; [|discriminate]. cbn [bind] in H. injection H as <-.
  destruct (step_W_signs _ _ _ _ _ E1 S) as (S1 & Q1 & G1 & _). destruct (step_H_signs _ _ _ _ _ E3) as (S3 & Q3 & G3 & _); [destruct acc; auto|].
  split; [now apply refresh1_fine|]. cbn. rewrite Q3, G3. destruct acc; cbn; auto.
Qed.
Lemma G1_fine : forall st st', fine1 st -> update_G1 F M N T eps X st = Some st' -> fine1 st' /\ sQ st' = sQ st.
Proof.
  intros st st' ((A & B & D) & EL & EY) H. unfold update_G1 in H. apply guard_Some in H. destruct H as [_ H]. apply guard_Some in H. destruct H as [_ H]. injection H as <-. cbn.
  split; [|auto]. split; [split; [auto|split; [auto|]]|split; auto]. intros n f m Hn Hf Hm. cbn. apply Rmult_le_pos; [now apply D|apply sqrt_pos].
Qed.
Lemma Q1_fine : forall l s s', foldM (update_Q1 solve pinv F M T eps X) l s = Some s' -> fine1 (fst s) -> fine1 (fst s') /\
  sG (fst s') = sG (fst s) /\ sW (fst s') = sW (fst s) /\ sH (fst s') = sH (fst s) /\ sL (fst s') = sL (fst s) /\ sY (fst s') = sY (fst s).
Proof.
  induction l as [|m l IH]; intros [s b] s' H S; cbn [foldM] in H; [injection H as <-; repeat split; apply S|].
  destruct (update_Q1 _ _ _ _ _ _ _ _ _) as [s1|] eqn:E; [|discriminate]. cbn [bind] in H. unfold update_Q1 in E. apply guard_Some in E. destruct E as [_ E]. destruct (for_all_f F (fun f => let* row := _ in _)) as [Q|]; [|discriminate].
  cbn [bind] in E. injection E as <-. destruct (IH _ _ H) as (A1 & A2 & A3 & A4 & A5 & A6); [exact S|]. cbn [fst sG sW sH sL sY] in *. rewrite A2, A3, A4, A5, A6. repeat split; auto; apply A1.
Qed.
Lemma normalise1_fine : forall st st', fine1 st -> normalise1 F M N K eps st = Some st' -> fine1 st'.
Proof.
  intros st st' ((A & B & D) & _ & _) H. unfold normalise1 in H. apply guard_Some in H. destruct H as [_ H]. apply guard_Some in H. destruct H as [_ H]. apply guard_Some in H. destruct H as [_ H]. injection H as <-.
  assert (PG : forall n f m, (n < N)%nat -> (f < F)%nat -> (m < M)%nat -> 0 <= sG st n f m / phi M (sQ st) f) by (intros; apply div_nonneg; [auto|apply phi_nonneg]).
  assert (Pm : forall n f, (n < N)%nat -> (f < F)%nat -> 0 <= bsum M (fun m => sG st n f m / phi M (sQ st) f)) by (intros; apply bsum_nonneg; auto).
  assert (PW : forall n f k, (n < N)%nat -> (f < F)%nat -> (k < K)%nat -> 0 <= sW st n f k * bsum M (fun m => sG st n f m / phi M (sQ st) f)) by (intros; apply Rmult_le_pos; auto).
  apply refresh1_fine. split; [|split]; intros a b c Ha Hb Hc; cbn.
  - apply div_nonneg; [auto|]. apply bsum_nonneg; auto.
  - apply Rmult_le_pos; [now apply B|]. apply bsum_nonneg; auto.
  - apply div_nonneg; auto.
Qed.
Lemma epoch1_fine : forall acc s n s', epoch1 solve pinv F M N K T eps X acc s n = Some s' -> fine1 (fst s) -> fine1 (fst s').
Proof.
  intros acc s n s' H S. unfold epoch1 in H. destruct (update_WH1 _ _ _ _ _ _ _ _ _) as [s1|] eqn:E1; [|discriminate]. cbn [bind] in H. destruct (update_G1 _ _ _ _ _ _ _) as [s2|] eqn:E2; [|discriminate]. cbn [bind] in H.
  destruct (foldM _ _ _) as [s3|] eqn:E3; [|discriminate]. cbn [bind] in H. destruct (WH1_fine _ _ _ S E1) as [S1 _]. destruct (G1_fine _ _ S1 E2) as [S2 _]. destruct (Q1_fine _ _ _ E3 S2) as [S3 _].
  destruct (Nat.eqb _ _); [|injection H as <-; auto]. destruct (normalise1 _ _ _ _ _ _) as [s4|] eqn:E4; [|discriminate]. cbn [bind] in H. injection H as <-. cbn. now apply (normalise1_fine (fst s3)).
Qed.
Lemma epochs1_fine : forall acc l s s', foldM (epoch1 solve pinv F M N K T eps X acc) l s = Some s' -> fine1 (fst s) -> fine1 (fst s').
Proof.
  intros acc. induction l as [|n l IH]; intros s s' H S; cbn [foldM] in H; [now injection H as <-|]. destruct (epoch1 _ _ _ _ _ _ _ _ _ _ _ _) as [s1|] eqn:E; [|discriminate]. cbn [bind] in H.
  apply (IH _ _ H). now apply (epoch1_fine _ _ _ _ E).
Qed.
Lemma init1_fine : forall Q0 W0 H0 st, nonneg3 N F K W0 -> nonneg3 N K T H0 -> init1 F M N K eps g_eps Q0 W0 H0 = Some st -> fine1 st.
Proof.
  intros Q0 W0 H0 st A B H. unfold init1 in H. destruct (Q_init F M Q0) as [Qn|]; [|discriminate]. cbn [bind] in H. injection H as <-. apply refresh1_fine. split; [auto|split; [auto|]]. intros n f m _ _ _. now apply G_init_nonneg.
Qed.

Lemma WH2_fine : forall acc e1 e2 st st', fine2 e1 e2 st -> update_WH2 F M N K T eps X acc st = Some st' -> fine2 eps eps st' /\ sQ st' = sQ st /\ sG st' = sG st.
Proof.
  intros acc e1 e2 st st' (S & Sh & _ & _) H. unfold update_WH2 in H. apply guard_Some in H. destruct H as [_ H]. destruct (step_W _ _ _ _ _ _ _ _) as [s1|] eqn:E1; [|discriminate]. cbn [bind] in H.
  destruct (step_H _ _ _ _ _ _ _ _) as [s3|] eqn:E3; [|discriminate]. cbn [bind] in H. injection H as <-.
  destruct (step_W_signs _ _ _ _ _ E1 S) as (S1 & Q1 & G1 & _). destruct (step_H_signs _ _ _ _ _ E3) as (S3 & Q3 & G3 & _); [destruct acc; auto|].
  assert (EG : sG s3 = sG st) by (rewrite G3; destruct acc; cbn; auto).
  split; [apply refresh2_fine; [auto|now rewrite EG]|]. cbn. rewrite Q3, EG. destruct acc; cbn; auto.
Qed.
Lemma G2_fine : forall st st', fine2 eps eps st -> update_G2 F M N T eps X st = Some st' -> fine2 eps eps st' /\ sQ st' = sQ st.
Proof.
  intros st st' ((A & B & D) & Sh & EL & EY) H. unfold update_G2 in H. apply guard_Some in H. destruct H as [_ H]. apply guard_Some in H. destruct H as [_ H]. injection H as <-. cbn.
  split; [|auto]. split; [split; [auto|split; [auto|]]|split; [|split; auto]]; [intros n f m Hn Hf Hm; cbn; apply Rmult_le_pos; [now apply D|apply sqrt_pos]|]. intros n f m. cbn. now rewrite Sh.
Qed.
Lemma Q2_fine : forall l s s', foldM (update_Q2 solve F M T X) l s = Some s' -> fine2 eps eps s -> fine2 eps eps s' /\ forall m, In m l -> forall f t, (f < F)%nat -> (t < T)%nat -> sY s f t m <> 0.
Proof.
  induction l as [|m l IH]; intros s s' H S; cbn [foldM] in H; [injection H as <-; split; [auto|intros m []]|].
  destruct (update_Q2 _ _ _ _ _ _ _) as [s1|] eqn:E; [|discriminate]. cbn [bind] in H. unfold update_Q2 in E. apply guard_Some in E. destruct E as [Nz E]. destruct (for_all_f F _) as [Q|]; [|discriminate].
  cbn [bind] in E. injection E as <-. destruct (IH _ _ H) as (A1 & A2); [exact S|]. split; [auto|]. intros j [<-|Hj] f t Hf Ht; [exact (all_nz2_spec _ _ _ Nz f t Hf Ht)|exact (A2 j Hj f t Hf Ht)].
Qed.
Lemma normalise2_fine : forall st st', (0 < F)%nat -> fine2 eps eps st -> normalise2 F M N K eps st = Some st' -> fine2 eps eps st'.
Proof.
  intros st st' HF ((A & B & D) & Sh & _ & _) H. unfold normalise2 in H. apply guard_Some in H. destruct H as [_ H]. apply guard_Some in H. destruct H as [_ H]. apply guard_Some in H. destruct H as [_ H]. injection H as <-.
  assert (Pm : forall n, (n < N)%nat -> 0 <= bsum M (fun m => sG st n 0%nat m)) by (intros; apply bsum_nonneg; intros; apply D; auto).
  assert (PW : forall n f k, (n < N)%nat -> (f < F)%nat -> (k < K)%nat -> 0 <= sW st n f k / phi M (sQ st) f * bsum M (fun m => sG st n 0%nat m)) by (intros; apply Rmult_le_pos; [apply div_nonneg; [auto|apply phi_nonneg]|auto]).
  apply refresh2_fine; [|intros n f m; cbn; now rewrite Sh]. split; [|split]; intros a b c Ha Hb Hc; cbn.
  - apply div_nonneg; [auto|]. apply bsum_nonneg; auto.
  - apply Rmult_le_pos; [now apply B|]. apply bsum_nonneg; auto.
  - apply div_nonneg; auto.
Qed.
Lemma epoch2_fine : forall acc e1 e2 s n s', (0 < F)%nat -> epoch2 solve F M N K T eps X acc s n = Some s' -> fine2 e1 e2 s -> fine2 eps eps s'.
Proof.
  intros acc e1 e2 s n s' HF H S. unfold epoch2 in H. destruct (update_WH2 _ _ _ _ _ _ _ _ _) as [s1|] eqn:E1; [|discriminate]. cbn [bind] in H. destruct (update_G2 _ _ _ _ _ _ _) as [s2|] eqn:E2; [|discriminate]. cbn [bind] in H.
  destruct (foldM _ _ _) as [s3|] eqn:E3; [|discriminate]. cbn [bind] in H. destruct (WH2_fine _ _ _ _ _ S E1) as [S1 _]. destruct (G2_fine _ _ S1 E2) as [S2 _]. destruct (Q2_fine _ _ _ E3 S2) as [S3 _].
  destruct (Nat.eqb _ _); [|injection H as <-; auto]. now apply (normalise2_fine s3).
Qed.
Lemma epochs2_fine : forall acc l s s', (0 < F)%nat -> foldM (epoch2 solve F M N K T eps X acc) l s = Some s' -> (exists e1 e2, fine2 e1 e2 s) -> exists e1 e2, fine2 e1 e2 s'.
Proof.
  intros acc. induction l as [|n l IH]; intros s s' HF H S; cbn [foldM] in H; [now injection H as <-|]. destruct (epoch2 _ _ _ _ _ _ _ _ _ _ _) as [s1|] eqn:E; [|discriminate]. cbn [bind] in H.
  apply (IH _ _ HF H). destruct S as (e1 & e2 & S). exists eps, eps. now apply (epoch2_fine _ _ _ _ _ _ HF E S).
Qed.
Lemma init2_fine : forall Q0 W0 H0 st, nonneg3 N F K W0 -> nonneg3 N K T H0 -> init2 F M N K g_eps Q0 W0 H0 = Some st -> fine2 0 0 st.
Proof.
  intros Q0 W0 H0 st A B H. unfold init2 in H. destruct (Q_init F M Q0) as [Qn|]; [|discriminate]. cbn [bind] in H. injection H as <-. split; [|split; [|split; reflexivity]].
  - split; [auto|split; [auto|]]. intros n f m _ _ _. now apply G_init_nonneg.
  - intros n f m. reflexivity.
Qed.
End Reach.

(** ** Scaled rows *)
Lemma det_scaled : forall n (k : nat -> C) A, (forall i, (i < n)%nat -> k i <> C0) -> det n A <> C0 -> det n (fun i j => (k i * A i j)%C) <> C0.
Proof.
  intros n k A Hk HA. assert (St : forall r, (r <= n)%nat -> det n (fun i j => if (i <? r)%nat then (k i * A i j)%C else A i j) <> C0).
  { induction r as [|r IH]; intros Hr.
    - rewrite (det_ext n _ A); auto.
    - set (B := fun i j => if (i <? r)%nat then (k i * A i j)%C else A i j) in *.
      rewrite (det_ext n _ (set_row B r (fun j => (k r * A r j)%C))).
      + rewrite det_scal by lia. rewrite (det_ext n _ B).
        * intros Z. apply Cabs2_pos in IH; [|lia]. pose proof (Cabs2_pos _ (Hk r ltac:(lia))) as P. apply (f_equal Cabs2) in Z. rewrite Cabs2_mul in Z. assert (0 < Cabs2 (k r) * Cabs2 (det n B)) by (now apply Rmult_lt_0_compat). assert (Cabs2 C0 = 0) by (unfold Cabs2; cbn; ring). lra.
        * intros i j Hi Hj. unfold set_row, B. destruct (Nat.eqb_spec i r) as [->|]; [|reflexivity]. now rewrite Nat.ltb_irrefl.
      + intros i j Hi Hj. unfold set_row, B. destruct (Nat.eqb_spec i r) as [->|Ne].
        * destruct (Nat.ltb_spec r (S r)); [reflexivity|lia].
        * destruct (Nat.ltb_spec i (S r)), (Nat.ltb_spec i r); try lia; reflexivity. }
  specialize (St n (le_n n)). intros Z. apply St. rewrite <- Z. apply det_ext. intros i j Hi Hj. destruct (Nat.ltb_spec i n); [reflexivity|lia].
Qed.
Lemma RtoC_nz : forall r, r <> 0 -> RtoC r <> C0.
Proof. intros r H Z. apply (f_equal fst) in Z. now cbn in Z. Qed.
Lemma Q_init_dets : forall F M Q0 Q, Q_init F M Q0 = Some Q -> (forall q f, Q0 = Some q -> (f < F)%nat -> det M (q f) <> C0) -> dets F M Q.
Proof.
  intros F M Q0 Q H HD f Hf. unfold Q_init in H. cbv zeta in H. apply guard_Some in H. destruct H as [Nz H]. injection H as <-.
  set (q0 := match Q0 with Some q => q | None => fun _ => unit_vec end) in *.
  assert (D0 : det M (q0 f) <> C0). { unfold q0. destruct Q0 as [q|]; [apply (HD q f); auto|]. rewrite det_one. apply (RtoC_nz 1). lra. }
  rewrite (det_ext M _ (fun m j => (RtoC (/ sqrt (bsum M (fun j => fst (q0 f m j * Conj (q0 f m j))%C))) * q0 f m j)%C)) by (intros; now rewrite Cscal_RtoC).
  apply (det_scaled M (fun m => RtoC (/ sqrt (bsum M (fun j => fst (q0 f m j * Conj (q0 f m j))%C))))); [|auto]. intros m Hm. apply RtoC_nz. apply Rinv_neq_0_compat. intros Z.
  apply (all_nz2_spec _ _ _ Nz f m Hf Hm). cbv beta. apply sqrt_eq_0 in Z; auto. apply bsum_nonneg. intros j _. destruct (q0 f m j) as [a b]. cbn. nra.
Qed.
Lemma normalise2_dets : forall F M N K eps st st', normalise2 F M N K eps st = Some st' -> dets F M (sQ st) -> dets F M (sQ st').
Proof.
  intros F M N K eps st st' H HD f Hf. unfold normalise2 in H. apply guard_Some in H. destruct H as [Nz H]. apply guard_Some in H. destruct H as [_ H]. apply guard_Some in H. destruct H as [_ H]. injection H as <-. cbn [sQ refresh2].
  rewrite (det_ext M _ (fun m j => (RtoC (/ sqrt (phi M (sQ st) f)) * sQ st f m j)%C)) by (intros; now rewrite Cscal_RtoC).
  apply (det_scaled M (fun m => RtoC (/ sqrt (phi M (sQ st) f)))); [|now apply HD]. intros m Hm. apply RtoC_nz. apply Rinv_neq_0_compat. intros Z. apply (all_nz_spec _ _ Nz f Hf). apply sqrt_eq_0 in Z; auto. apply phi_nonneg.
Qed.
Section Dets.
Variables (solve : nat -> mat -> (nat -> C) -> option (nat -> C)) (F M N K T : nat) (eps : R) (X : nat -> nat -> nat -> C).
Hypotheses (Hsolve : is_solve solve) (He : 0 <= eps) (HF : (0 < F)%nat) (HM : (0 < M)%nat) (HK : (0 < K)%nat) (HT : (0 < T)%nat).
Lemma Y_pos2 : forall st, fine2 F M N K T eps eps st -> (forall m, In m (seq 0 M) -> forall f t, (f < F)%nat -> (t < T)%nat -> sY st f t m <> 0) ->
  forall f t m, (f < F)%nat -> (t < T)%nat -> (m < M)%nat -> 0 < sY st f t m.
Proof.
  intros st ((A & B & D) & Sh & EL & EY) Nz f t m Hf Ht Hm. apply pos_of; [|apply Nz; auto; apply in_seq; lia]. rewrite EY, EL. apply (model_nonneg F M N K T); auto.
Qed.
Lemma epoch2_dets : forall acc e1 e2 s n s', epoch2 solve F M N K T eps X acc s n = Some s' -> fine2 F M N K T e1 e2 s -> dets F M (sQ s) -> dets F M (sQ s').
Proof.
  intros acc e1 e2 s n s' H S HD. unfold epoch2 in H. destruct (update_WH2 _ _ _ _ _ _ _ _ _) as [s1|] eqn:E1; [|discriminate]. cbn [bind] in H. destruct (update_G2 _ _ _ _ _ _ _) as [s2|] eqn:E2; [|discriminate]. cbn [bind] in H.
  destruct (foldM _ _ _) as [s3|] eqn:E3; [|discriminate]. cbn [bind] in H. destruct (WH2_fine _ _ _ _ _ _ _ _ _ _ _ _ S E1) as (S1 & Q1 & _). destruct (G2_fine _ _ _ _ _ _ _ _ _ S1 E2) as (S2 & Q2).
  destruct (Q2_fine _ _ _ _ _ _ _ _ _ _ _ E3 S2) as (S3 & Nz). destruct (Q_steps2 solve F M T X Hsolve HT (seq 0 M) s2 s3) as (D3 & _); auto; [intros m Hm; apply in_seq in Hm; lia|now apply Y_pos2|now rewrite Q2, Q1|].
  destruct (Nat.eqb _ _); [|injection H as <-; auto]. now apply (normalise2_dets _ _ _ _ _ _ _ H).
Qed.
Lemma epochs2_dets : forall acc l s s', foldM (epoch2 solve F M N K T eps X acc) l s = Some s' -> (exists e1 e2, fine2 F M N K T e1 e2 s) -> dets F M (sQ s) -> dets F M (sQ s').
Proof.
  intros acc. induction l as [|n l IH]; intros s s' H S HD; cbn [foldM] in H; [now injection H as <-|]. destruct (epoch2 _ _ _ _ _ _ _ _ _ _ _) as [s1|] eqn:E; [|discriminate]. cbn [bind] in H.
  destruct S as (e1 & e2 & S). apply (IH _ _ H); [exists eps, eps; now apply (epoch2_fine _ _ _ _ _ _ _ _ _ _ _ _ _ _ HF E S)|]. now apply (epoch2_dets _ _ _ _ _ _ E S).
Qed.
End Dets.
Lemma Q1_nz : forall solve pinv F M T eps X l s s', foldM (update_Q1 solve pinv F M T eps X) l s = Some s' -> forall m, In m l -> forall f t, (f < F)%nat -> (t < T)%nat -> sY (fst s) f t m <> 0.
Proof.
  induction l as [|m l IH]; intros [s b] s' H j Hj f t Hf Ht; [destruct Hj|]. cbn [foldM] in H.
  destruct (update_Q1 _ _ _ _ _ _ _ _ _) as [s1|] eqn:E; [|discriminate]. cbn [bind] in H. unfold update_Q1 in E. apply guard_Some in E. destruct E as [Nz E]. destruct (for_all_f F (fun f => let* row := _ in _)) as [Q|]; [|discriminate].
  cbn [bind] in E. injection E as <-. destruct Hj as [<-|Hj]; [exact (all_nz2_spec _ _ _ Nz f t Hf Ht)|]. exact (IH _ _ H j Hj f t Hf Ht).
Qed.
