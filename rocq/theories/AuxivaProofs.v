From Coq Require Import List ZArith Lia Reals Lra Bool.
From Verif Require Import Base Vec Sum Cpx BackModel BackProps AuxivaModel AuxivaSpec BaseProofs.
Import ListNotations.
Local Open Scope R_scope.

Lemma csum_add3 : forall n m f, csum n (fun i => csum m (fun j => f i j)) = csum m (fun j => csum n (fun i => f i j)).
Proof. exact csum_swap. Qed.
Lemma csum_delta_l : forall n s (v : nat -> C), (s < n)%nat -> csum n (fun j => (unit_vec s j * v j)%C) = v s.
Proof.
  intros n s v Hs. rewrite (csum_delta n s); [unfold unit_vec; rewrite Nat.eqb_refl; ring|auto|].
  intros i Hi Hne. unfold unit_vec. destruct (Nat.eqb_spec i s); [congruence|ring].
Qed.
Lemma unit_sym : forall i j, unit_vec i j = unit_vec j i.
Proof. intros. unfold unit_vec. now rewrite Nat.eqb_sym. Qed.

Lemma bsum_zero_each : forall n e, (forall i, 0 <= e i) -> bsum n e = 0 -> forall i, (i < n)%nat -> e i = 0.
Proof.
  induction n as [|n IH]; intros e He Z i Hi; [lia|]. cbn [bsum] in Z. assert (0 <= bsum n e) by (apply bsum_nonneg; auto). pose proof (He n).
  destruct (Nat.eq_dec i n) as [->|]; [lra|]. apply IH; auto; [lra|lia].
Qed.

(** ** The weighted covariance as a form *)
Section Form.
Variables (M T : nat) (rho : nat -> R) (x : nat -> nat -> C).
Hypothesis Hrho : forall t, 0 <= rho t.
Let V : mat := fun c d => Cscal (/ INR T) (csum T (fun t => (Cscal (rho t) (x c t) * Conj (x d t))%C)).
Let out (w : nat -> C) (t : nat) : C := csum M (fun c => (w c * x c t)%C).
Definition q (w : nat -> C) : R := / INR T * bsum T (fun t => rho t * Cabs2 (csum M (fun c => (w c * x c t)%C))).

Lemma form_eq : forall u w, form M V u w = Cscal (/ INR T) (csum T (fun t => Cscal (rho t) (out u t * Conj (out w t))%C)).
Proof.
  intros u w. unfold form, V, out.
  transitivity (csum M (fun d => csum M (fun c => csum T (fun t => (RtoC (/ INR T) * RtoC (rho t) * (u c * x c t) * (Conj (x d t) * Conj (w d)))%C)))).
  { apply csum_ext. intros d _. rewrite <- csum_scal_r. apply csum_ext. intros c _. rewrite Cscal_RtoC.
    rewrite <- csum_scal, <- csum_scal, <- csum_scal_r. apply csum_ext. intros t _. rewrite Cscal_RtoC. ring. }
  rewrite (csum_ext M _ (fun d => csum T (fun t => csum M (fun c => (RtoC (/ INR T) * RtoC (rho t) * (u c * x c t) * (Conj (x d t) * Conj (w d)))%C)))) by (intros; apply csum_swap).
  rewrite csum_swap. rewrite Cscal_RtoC, <- csum_scal. apply csum_ext. intros t _. rewrite Cscal_RtoC. rewrite csum_conj.
  transitivity (csum M (fun d => (RtoC (/ INR T) * RtoC (rho t) * csum M (fun c => u c * x c t) * (Conj (x d t) * Conj (w d)))%C)).
  { apply csum_ext. intros d _. rewrite <- csum_scal, <- csum_scal_r. reflexivity. }
  rewrite csum_scal. rewrite (csum_ext M (fun i => Conj (w i * x i t)%C) (fun d => (Conj (x d t) * Conj (w d))%C)) by (intros; rewrite Conj_mul; ring). ring.
Qed.
Lemma form_q : forall w, form M V w w = RtoC (q w).
Proof.
  intros w. rewrite form_eq. unfold q. rewrite RtoC_mul, <- csum_RtoC, Cscal_RtoC. f_equal. apply csum_ext. intros t _. rewrite Cscal_RtoC, RtoC_mul, Cmul_conj. reflexivity.
Qed.
Lemma T_inv : 0 <= / INR T.
Proof. destruct T; [cbn; rewrite Rinv_0; lra|]. left. apply Rinv_0_lt_compat, lt_0_INR. lia. Qed.
Lemma q_nonneg : forall w, 0 <= q w.
Proof. intros w. unfold q. apply Rmult_le_pos; [apply T_inv|]. apply bsum_nonneg. intros. apply Rmult_le_pos; [auto|apply Cabs2_nonneg]. Qed.
Lemma V_herm : forall c d, Conj (V c d) = V d c.
Proof.
  intros c d. unfold V. apply C_eq; cbn [Cscal Conj fst snd csum]; [|rewrite Ropp_mult_distr_r]; f_equal; [|rewrite <- bsum_opp]; apply bsum_ext; intros t _; cbn; ring.
Qed.
(** Cauchy-Schwarz *)
Lemma form_cs : forall u w, Cabs2 (form M V u w) <= q u * q w.
Proof.
  intros u w. destruct (Req_dec (q w) 0) as [Z|Z].
  - assert (E : form M V u w = C0).
    { rewrite form_eq. unfold q in Z. destruct (Rmult_integral _ _ Z) as [Z'|Z'].
      - rewrite Z'. cring.
      - rewrite (csum_zero_ext T); [cring|]. intros t Ht.
        assert (Q : rho t * Cabs2 (out w t) = 0).
        { apply (bsum_zero_each T (fun t => rho t * Cabs2 (out w t))); auto. intros i. apply Rmult_le_pos; [auto|apply Cabs2_nonneg]. }
        destruct (Rmult_integral _ _ Q) as [R0|R0]; [rewrite R0; cring|]. apply Cabs2_zero in R0. rewrite R0. cring. }
    rewrite E, Z. unfold Cabs2. cbn. lra.
  - pose proof (q_nonneg w) as Qw. assert (P : 0 < q w) by lra.
    set (b := form M V u w). set (l := Cscal (/ q w) b).
    pose proof (q_nonneg (fun c => (u c - l * w c)%C)) as N.
    assert (E : q (fun c => (u c - l * w c)%C) = q u - 2 * fst (Conj l * b)%C + Cabs2 l * q w).
    { assert (O : forall t, out (fun c => (u c - l * w c)%C) t = (out u t - l * out w t)%C).
      { intros t. unfold out. rewrite <- csum_scal, <- csum_sub. apply csum_ext. intros. ring. }
      unfold b. rewrite form_eq. unfold q.
      rewrite (bsum_ext T _ (fun t => rho t * Cabs2 (out u t) + (- 2 * (fst l * (rho t * fst (out u t * Conj (out w t))%C) + snd l * (rho t * snd (out u t * Conj (out w t))%C)) + Cabs2 l * (rho t * Cabs2 (out w t))))).
      - rewrite bsum_plus, bsum_plus, bsum_scal, bsum_scal, bsum_plus, bsum_scal, bsum_scal. cbn [Cscal csum fst snd Cmul Conj]. unfold out. cbn. ring.
      - intros t _. change (csum M (fun c => ((u c - l * w c) * x c t)%C)) with (out (fun c => (u c - l * w c)%C) t). rewrite O. unfold Cabs2. cbn. ring. }
    rewrite E in N. assert (L : fst (Conj l * b)%C = Cabs2 b / q w) by (unfold l, Cabs2; cbn; field; lra).
    assert (L2 : Cabs2 l * q w = Cabs2 b / q w) by (unfold l, Cabs2; cbn; field; lra). rewrite L, L2 in N.
    assert (Cabs2 b / q w <= q u) by lra. apply (Rmult_le_compat_r (q w)) in H; [|lra]. unfold Rdiv in H. rewrite Rmult_assoc, Rinv_l, Rmult_1_r in H by lra. exact H.
Qed.
End Form.

(** ** One row *)
Lemma Cmul_comm_ : forall a b : C, (a * b)%C = (b * a)%C.
Proof. intros. ring. Qed.
Lemma mulmat_assoc : forall M A B E i j, mulmat M A (mulmat M B E) i j = mulmat M (mulmat M A B) E i j.
Proof.
  intros. unfold mulmat. rewrite (csum_ext M (fun k => (csum M (fun k0 => A i k0 * B k0 k) * E k j)%C) (fun k => csum M (fun l => (A i l * B l k * E k j)%C))) by (intros; now rewrite <- csum_scal_r).
  rewrite csum_swap. apply csum_ext. intros l _. rewrite <- csum_scal. apply csum_ext. intros. ring.
Qed.
Lemma mulmat_ext : forall M A A' B B' i j, (forall k, (k < M)%nat -> A i k = A' i k) -> (forall k, (k < M)%nat -> B k j = B' k j) -> mulmat M A B i j = mulmat M A' B' i j.
Proof. intros. unfold mulmat. apply csum_ext. intros k Hk. now rewrite H, H0. Qed.
Lemma mulmat_unit_r : forall M A i j, (j < M)%nat -> mulmat M A unit_vec i j = A i j.
Proof.
  intros M A i j Hj. unfold mulmat. rewrite (csum_ext M _ (fun k => (unit_vec j k * A i k)%C)) by (intros; rewrite (unit_sym j); ring). now apply csum_delta_l.
Qed.
Lemma mulmat_unit_l : forall M A i j, (i < M)%nat -> mulmat M unit_vec A i j = A i j.
Proof. intros M A i j Hi. unfold mulmat. now apply (csum_delta_l M i (fun k => A k j)). Qed.
Definition mv (M : nat) (A : mat) (v : nat -> C) (i : nat) : C := csum M (fun j => (A i j * v j)%C).
Lemma mv_mulmat : forall M A B v i, mv M A (mv M B v) i = mv M (mulmat M A B) v i.
Proof.
  intros. unfold mv, mulmat. rewrite (csum_ext M (fun j => (csum M (fun k => A i k * B k j) * v j)%C) (fun j => csum M (fun k => (A i k * B k j * v j)%C))) by (intros; now rewrite <- csum_scal_r).
  rewrite csum_swap. apply csum_ext. intros l _. rewrite <- csum_scal. apply csum_ext. intros. ring.
Qed.
Lemma mv_unit : forall M v i, (i < M)%nat -> mv M unit_vec v i = v i.
Proof. intros. unfold mv. now apply csum_delta_l. Qed.
Lemma mv_ext : forall M A A' v v' i, (forall j, (j < M)%nat -> A i j = A' i j) -> (forall j, (j < M)%nat -> v j = v' j) -> mv M A v i = mv M A' v' i.
Proof. intros. unfold mv. apply csum_ext. intros j Hj. now rewrite H, H0. Qed.

Lemma csqrt_real : forall r, 0 <= r -> csqrt (RtoC r) = RtoC (sqrt r).
Proof.
  intros r Hr. unfold csqrt. assert (A : Cabs (RtoC r) = r). { unfold Cabs, Cabs2, RtoC. cbn. replace (r * r + 0 * 0) with (r ^ 2) by ring. now apply sqrt_pow2. }
  rewrite A. cbn [RtoC fst snd]. destruct (Rlt_dec 0 0); [lra|]. unfold RtoC. f_equal; [f_equal; field|]. replace ((r - r) / 2) with 0 by field. apply sqrt_0.
Qed.
Lemma Cdiv_real : forall a r, r <> 0 -> Cdiv a (RtoC r) = Cscal (/ r) a.
Proof. intros a r H. unfold Cdiv, Cabs2. apply C_eq; cbn; field; auto. Qed.

Section Row.
Variables (M T : nat) (rho : nat -> R) (x : nat -> nat -> C).
Hypothesis Hrho : forall t, 0 <= rho t.
Let V : mat := fun c d => Cscal (/ INR T) (csum T (fun t => (Cscal (rho t) (x c t) * Conj (x d t))%C)).
Variables (W : mat) (s : nat) (y : nat -> C).
Hypothesis Hs : (s < M)%nat.
Hypothesis Hinv : invertible M (fun i d => csum M (fun c => (W i c * V c d)%C)).
Hypothesis Hy : forall i, (i < M)%nat -> csum M (fun j => (csum M (fun c => (W i c * V c j)%C) * y j)%C) = unit_vec s i.
Let w d := Conj (y d).

Lemma form_w : forall u, form M V u w = csum M (fun j => (csum M (fun c => (u c * V c j)%C) * y j)%C).
Proof. intros u. unfold form, w. apply csum_ext. intros j _. now rewrite Conj_conj. Qed.
Lemma form_rows : forall i, (i < M)%nat -> form M V (W i) w = unit_vec s i.
Proof. intros i Hi. rewrite form_w. auto. Qed.
Lemma row_form_mv : forall u, form M V u w = csum M (fun c => (u c * mv M V y c)%C).
Proof.
  intros u. rewrite form_w. unfold mv. transitivity (csum M (fun j => csum M (fun c => (u c * V c j * y j)%C))).
  - apply csum_ext. intros. now rewrite <- csum_scal_r.
  - rewrite csum_swap. apply csum_ext. intros c _. rewrite <- csum_scal. apply csum_ext. intros. ring.
Qed.
Lemma q_w_pos : 0 < q M T rho x w.
Proof.
  pose proof (form_rows s Hs) as E. unfold unit_vec in E. rewrite Nat.eqb_refl in E.
  pose proof (form_cs M T rho x Hrho (W s) w) as Cs. fold V in Cs. rewrite E in Cs. assert (Cabs2 C1 = 1) by (unfold Cabs2; cbn; ring). rewrite H in Cs.
  pose proof (q_nonneg M T rho x Hrho w). pose proof (q_nonneg M T rho x Hrho (W s)). nra.
Qed.

(** [W] has a left inverse. *)
Lemma W_left : exists L : mat, forall i j, (i < M)%nat -> (j < M)%nat -> mulmat M L W i j = unit_vec i j.
Proof.
  destruct Hinv as (B & HB). set (WV := fun i d => csum M (fun c => (W i c * V c d)%C)) in *. change WV with (mulmat M W V) in HB.
  set (A := mulmat M B W).
  assert (AV : forall i j, (i < M)%nat -> (j < M)%nat -> mulmat M A V i j = unit_vec i j).
  { intros i j Hi Hj. unfold A. rewrite <- mulmat_assoc. apply HB; auto. }
  set (A' := fun i j => Conj (A j i)).
  assert (VA' : forall i j, (i < M)%nat -> (j < M)%nat -> mulmat M V A' i j = unit_vec i j).
  { intros i j Hi Hj. transitivity (Conj (mulmat M A V j i)).
    - unfold mulmat. rewrite csum_conj. apply csum_ext. intros k _. rewrite Conj_mul. unfold A'. assert (Hm : Conj (V k i) = V i k) by apply V_herm. rewrite Hm. apply Cmul_comm_.
    - rewrite AV by auto. rewrite unit_sym. unfold unit_vec. destruct (_ =? _)%nat; cring. }
  assert (EA : forall i j, (i < M)%nat -> (j < M)%nat -> A i j = A' i j).
  { intros i j Hi Hj. transitivity (mulmat M A (mulmat M V A') i j).
    - rewrite (mulmat_ext M A A (mulmat M V A') unit_vec) by (auto; intros; now apply VA'). now rewrite mulmat_unit_r.
    - rewrite mulmat_assoc. rewrite (mulmat_ext M (mulmat M A V) unit_vec A' A') by (auto; intros; now apply AV). now rewrite mulmat_unit_l. }
  exists (mulmat M V B). intros i j Hi Hj. rewrite <- mulmat_assoc. fold A.
  rewrite (mulmat_ext M V V A A') by (auto; intros; now apply EA). now apply VA'.
Qed.

Variable D : mat -> C.
Hypothesis HD : alternating M D.
(** Linear combinations of rows. *)
Lemma D_zero : forall A i, (i < M)%nat -> D (set_row A i (fun _ => C0)) = C0.
Proof. intros A i Hi. rewrite (alt_ext M D HD _ (set_row A i (fun j => (C0 * C0)%C))) by (intros; unfold set_row; destruct (_ =? _)%nat; auto; ring). rewrite (alt_scal M D HD A i C0 (fun _ => C0) Hi). ring. Qed.
Lemma D_comb : forall A i n (k : nat -> C) (u : nat -> nat -> C), (i < M)%nat ->
  D (set_row A i (fun j => csum n (fun l => (k l * u l j)%C))) = csum n (fun l => (k l * D (set_row A i (u l)))%C).
Proof.
  intros A i n k u Hi. induction n as [|n IH].
  - rewrite csum_0. rewrite <- (D_zero A i Hi). apply (alt_ext M D HD). intros a b _ _. unfold set_row. destruct (_ =? _)%nat; auto.
  - rewrite csum_S, <- IH. rewrite <- (alt_scal M D HD A i (k n) (u n) Hi).
    rewrite <- (alt_add M D HD A i (fun j => csum n (fun l => (k l * u l j)%C)) (fun j => (k n * u n j)%C) Hi). apply (alt_ext M D HD). intros a b _ _. unfold set_row. destruct (_ =? _)%nat; auto.
Qed.
Lemma D_row : forall u, D (set_row W s u) = (D W * form M V u w)%C.
Proof.
  intros u. set (cof := fun j => D (set_row W s (unit_vec j))).
  assert (Lin : forall u, D (set_row W s u) = csum M (fun j => (u j * cof j)%C)).
  { intros v. unfold cof. rewrite <- (D_comb W s M v (fun l => unit_vec l) Hs). apply (alt_ext M D HD). intros a b _ Hb. unfold set_row. destruct (a =? s)%nat; auto.
    rewrite (csum_ext M _ (fun l => (unit_vec b l * v l)%C)) by (intros; rewrite (unit_sym b); ring). now rewrite csum_delta_l. }
  assert (Wc : forall i, (i < M)%nat -> mv M W cof i = (D W * unit_vec s i)%C).
  { intros i Hi. unfold mv. rewrite <- Lin. unfold unit_vec. destruct (Nat.eqb_spec i s) as [->|Ne].
    - rewrite (alt_ext M D HD _ W); [ring|]. intros a b _ _. unfold set_row. destruct (Nat.eqb_spec a s); congruence.
    - rewrite (alt_same M D HD W s i Hs Hi) by congruence. ring. }
  assert (Wa : forall i, (i < M)%nat -> mv M W (mv M V y) i = unit_vec s i).
  { intros i Hi. rewrite <- (form_rows i Hi). rewrite row_form_mv. reflexivity. }
  destruct W_left as (L & HL).
  assert (E : forall j, (j < M)%nat -> cof j = (D W * mv M V y j)%C).
  { intros j Hj. rewrite <- (mv_unit M cof j Hj), <- (mv_unit M (mv M V y) j Hj).
    rewrite (mv_ext M unit_vec (mulmat M L W) cof cof) by (auto; intros; symmetry; now apply HL).
    rewrite (mv_ext M unit_vec (mulmat M L W) (mv M V y) (mv M V y)) by (auto; intros; symmetry; now apply HL).
    rewrite <- !mv_mulmat. rewrite (mv_ext M L L (mv M W cof) (fun i => (D W * unit_vec s i)%C)) by auto.
    rewrite (mv_ext M L L (mv M W (mv M V y)) (unit_vec s)) by auto. unfold mv. rewrite <- csum_scal. apply csum_ext. intros. ring. }
  rewrite Lin, row_form_mv, <- csum_scal. apply csum_ext. intros j Hj. rewrite E by auto. ring.
Qed.

Let w' d := Cdiv (w d) (csqrt (form M V w w)).
Lemma w'_eq : forall d, w' d = Cscal (/ sqrt (q M T rho x w)) (w d).
Proof.
  intros d. unfold w'. unfold V. rewrite (form_q M T rho x). pose proof q_w_pos. rewrite csqrt_real by lra. apply Cdiv_real. apply Rgt_not_eq, sqrt_lt_R0. lra.
Qed.
Lemma form_w' : forall u, form M V u w' = Cscal (/ sqrt (q M T rho x w)) (form M V u w).
Proof.
  intros u. unfold form. rewrite Cscal_RtoC, <- csum_scal. apply csum_ext. intros d _. rewrite w'_eq, Cscal_RtoC, Conj_mul, Conj_RtoC. ring.
Qed.
Lemma normalised : form M V w' w' = C1.
Proof.
  rewrite form_w'. assert (E : form M V w' w = Cscal (/ sqrt (q M T rho x w)) (form M V w w)).
  { unfold form. rewrite Cscal_RtoC, <- csum_scal. apply csum_ext. intros d _.
    rewrite (csum_ext M (fun c => (w' c * V c d)%C) (fun c => (RtoC (/ sqrt (q M T rho x w)) * (w c * V c d))%C)) by (intros; rewrite w'_eq, Cscal_RtoC; ring).
    rewrite csum_scal. ring. }
  rewrite E. unfold V. rewrite (form_q M T rho x). pose proof q_w_pos as P. assert (Q : sqrt (q M T rho x w) * sqrt (q M T rho x w) = q M T rho x w) by (apply sqrt_sqrt; lra).
  assert (0 < sqrt (q M T rho x w)) by (apply sqrt_lt_R0; lra). apply C_eq; cbn; [|ring]. rewrite <- Q at 3. field. lra.
Qed.
Lemma orthogonal : forall i, (i < M)%nat -> i <> s -> form M V (W i) w' = C0.
Proof. intros i Hi Hne. rewrite form_w', form_rows by auto. unfold unit_vec. destruct (Nat.eqb_spec i s); [congruence|]. cring. Qed.
Lemma q_w' : q M T rho x w' = 1.
Proof. pose proof normalised as E. unfold V in E. rewrite (form_q M T rho x) in E. now injection E. Qed.
Lemma D_new : Cabs2 (D (set_row W s w')) = Cabs2 (D W) * q M T rho x w.
Proof.
  rewrite D_row, Cabs2_mul. f_equal.
  assert (E : form M V w' w = RtoC (sqrt (q M T rho x w))).
  { pose proof (form_w' w') as F. rewrite normalised in F. pose proof q_w_pos as P. assert (0 < sqrt (q M T rho x w)) by (apply sqrt_lt_R0; lra).
    apply C_eq; apply (f_equal fst) in F as F1; apply (f_equal snd) in F as F2; cbn in *.
    - apply (f_equal (Rmult (sqrt (q M T rho x w)))) in F1. rewrite <- Rmult_assoc, Rinv_r in F1 by lra. lra.
    - apply (f_equal (Rmult (sqrt (q M T rho x w)))) in F2. rewrite <- Rmult_assoc, Rinv_r in F2 by lra. lra. }
  rewrite E. unfold Cabs2. cbn. rewrite sqrt_sqrt by (pose proof q_w_pos; lra). ring.
Qed.
(** The new row is the best one. *)
Lemma row_best : D W <> C0 -> forall u, D (set_row W s u) <> C0 ->
  q M T rho x w' - ln (Cabs2 (D (set_row W s w'))) <= q M T rho x u - ln (Cabs2 (D (set_row W s u))).
Proof.
  intros NW u Nu. rewrite q_w', D_new. rewrite D_row in Nu |- *. rewrite Cabs2_mul. pose proof q_w_pos as P.
  assert (A : 0 < Cabs2 (D W)) by (pose proof (Cabs2_nonneg (D W)); destruct (Rle_lt_or_eq_dec 0 (Cabs2 (D W))); auto; exfalso; now apply NW, Cabs2_zero).
  assert (G : 0 < Cabs2 (form M V u w)).
  { pose proof (Cabs2_nonneg (form M V u w)). destruct (Rle_lt_or_eq_dec 0 (Cabs2 (form M V u w))) as [|E]; auto. exfalso. symmetry in E. apply Cabs2_zero in E. apply Nu. rewrite E. ring. }
  pose proof (form_cs M T rho x Hrho u w) as Cs. fold V in Cs. set (g := Cabs2 (form M V u w)) in *. set (qw := q M T rho x w) in *. set (qu := q M T rho x u) in *.
  rewrite !ln_mult by auto. assert (Qu : 0 < qu) by nra.
  assert (L1 : ln g <= ln qu + ln qw). { rewrite <- ln_mult by auto. destruct (Rle_lt_or_eq_dec _ _ Cs) as [H|H]; [left; now apply ln_increasing|rewrite H; lra]. }
  assert (L2 : ln qu <= qu - 1). { rewrite <- (ln_exp (qu - 1)). destruct (Req_dec (qu - 1) 0) as [Z|Z]; [rewrite Z, exp_0; replace qu with 1 by lra; lra|]. left. apply ln_increasing; auto. pose proof (exp_ineq1 (qu - 1) Z). lra. }
  lra.
Qed.
End Row.

(** ** All frequencies *)
Lemma mapM_seq_nth : forall (A : Type) (g : nat -> option A) d n l, mapM g (seq 0 n) = Some l -> length l = n /\ forall f, (f < n)%nat -> g f = Some (nth f l d).
Proof.
  intros A g d n l H. apply mapM_inv in H. assert (L : length l = n). { clear - H. transitivity (length (seq 0 n)); [|apply seq_length]. symmetry. induction H; cbn; congruence. }
  split; auto. intros f Hf. assert (Q : forall k xs ys, Forall2 (fun x y => g x = Some y) xs ys -> (k < length xs)%nat -> g (nth k xs 0%nat) = Some (nth k ys d)).
  { clear. intros k xs ys H. revert k. induction H; intros k Hk; cbn in Hk; [lia|]. destruct k; cbn; auto. apply IHForall2. lia. }
  pose proof (Q f _ _ H) as E. rewrite seq_length, seq_nth in E by auto. exact (E Hf).
Qed.
Lemma for_all_f_Some : forall F g W', for_all_f F g = Some W' -> forall f, (f < F)%nat -> g f = Some (W' f).
Proof.
  intros F g W' H f Hf. unfold for_all_f in H. destruct (mapM g (seq 0 F)) as [l|] eqn:E; [|discriminate]. cbn in H. inversion H; subst; clear H.
  destruct (mapM_seq_nth _ g (fun _ _ => C0) F l E) as [_ N]. now apply N.
Qed.

Lemma new_row_facts : forall solve M T X rho f W s row, is_solve solve -> (forall t, 0 <= rho t) -> (s < M)%nat ->
  new_row solve M W (weighted T X rho f) s = Some row ->
  form M (weighted T X rho f) row row = C1 /\
  (forall i, (i < M)%nat -> i <> s -> form M (weighted T X rho f) (W i) row = C0) /\
  (forall D, alternating M D -> D W <> C0 -> D (set_row W s row) <> C0 /\
    forall u, D (set_row W s u) <> C0 -> q M T rho (X f) row - ln (Cabs2 (D (set_row W s row))) <= q M T rho (X f) u - ln (Cabs2 (D (set_row W s u)))).
Proof.
  intros solve M T X rho f W s row Hs Hr Hsm H. unfold new_row in H.
  destruct (solve M _ (unit_vec s)) as [y|] eqn:E; [|discriminate]. cbn [bind] in H. inversion H; subst row; clear H.
  apply Hs in E. destruct E as [Hinv Hy].
  change (weighted T X rho f) with (fun c d => Cscal (/ INR T) (csum T (fun t => (Cscal (rho t) (X f c t) * Conj (X f d t))%C))).
  split; [|split].
  - exact (normalised M T rho (X f) Hr W s y Hsm Hy).
  - intros i Hi Ne. exact (orthogonal M T rho (X f) Hr W s y Hsm Hy i Hi Ne).
  - intros D HD N. split.
    + intros Z. pose proof (D_new M T rho (X f) Hr W s y Hsm Hinv Hy D HD) as Q.
      pose proof (q_w_pos M T rho (X f) Hr W s y Hsm Hy) as P.
      assert (A : 0 < Cabs2 (D W)) by (pose proof (Cabs2_nonneg (D W)); destruct (Rle_lt_or_eq_dec 0 (Cabs2 (D W))); auto; exfalso; now apply N, Cabs2_zero).
      assert (B : Cabs2 (D W) * q M T rho (X f) (fun d => Conj (y d)) = 0).
      { rewrite <- Q. transitivity (Cabs2 C0); [exact (f_equal Cabs2 Z)|unfold Cabs2; cbn; ring]. }
      nra.
    + exact (row_best M T rho (X f) Hr W s y Hsm Hinv Hy D HD N).
Qed.

(** ** The contrasts and their tangents *)
Definition floored (model : source_model) (F : nat) (eps e : R) : R :=
  let r := match model with Laplace => 2 * sqrt e | Gauss => e / INR F end in if Rlt_dec r eps then eps else r.
Definition offset (model : source_model) (F : nat) (r : R) : R := match model with Laplace => r / 4 | Gauss => INR F * ln r end.
Lemma ln_le_minus : forall x, 0 < x -> ln x <= x - 1.
Proof.
  intros x H. rewrite <- (ln_exp (x - 1)). destruct (Req_dec (x - 1) 0) as [Z|Z]; [rewrite Z, exp_0; replace x with 1 by lra; lra|].
  left. apply ln_increasing; auto. pose proof (exp_ineq1 (x - 1) Z). lra.
Qed.
Lemma ln_quot : forall a b, 0 < a -> 0 < b -> ln (a / b) = ln a - ln b.
Proof. intros a b Ha Hb. unfold Rdiv. rewrite ln_mult; [|auto|now apply Rinv_0_lt_compat]. rewrite ln_Rinv by auto. ring. Qed.
Lemma floored_ge : forall m F eps e, eps <= floored m F eps e.
Proof. intros. unfold floored. destruct (Rlt_dec _ eps); lra. Qed.
Lemma contrast_at : forall m F eps e, 0 < eps -> 0 <= e -> (0 < F)%nat -> contrast m F eps e = e / floored m F eps e + offset m F (floored m F eps e).
Proof.
  intros m F eps e He H0 HF. assert (PF : 0 < INR F) by (apply lt_0_INR; auto). unfold contrast, floored, offset. destruct m.
  - destruct (Rlt_dec (2 * sqrt e) eps) as [|N]; [reflexivity|]. assert (0 < sqrt e) by lra. rewrite <- (sqrt_sqrt e) at 2 by auto. field. lra.
  - destruct (Rlt_dec (e / INR F) eps) as [|N]; [reflexivity|]. f_equal. assert (0 < e / INR F) by lra.
    assert (0 < e). { replace e with (e / INR F * INR F) by (field; lra). now apply Rmult_lt_0_compat. } field. lra.
Qed.
Lemma div_le : forall a b c, 0 < c -> a <= b * c -> a / c <= b.
Proof. intros a b c Hc H. apply (Rmult_le_reg_r c); auto. replace (a / c * c) with a by (field; lra). auto. Qed.
Lemma contrast_below : forall m F eps e r, 0 < eps -> 0 <= e -> (0 < F)%nat -> eps <= r -> contrast m F eps e <= e / r + offset m F r.
Proof.
  intros m F eps e r He H0 HF Hr. assert (PF : 0 < INR F) by (apply lt_0_INR; auto). assert (Pr : 0 < r) by lra. unfold contrast, offset. destruct m.
  - destruct (Rlt_dec (2 * sqrt e) eps) as [L|N].
    + pose proof (sqrt_pos e) as Sp. assert (Q : 4 * e <= eps * eps). { rewrite <- (sqrt_sqrt e) by auto. nra. }
      assert (D : e / r + r / 4 - (e / eps + eps / 4) = (r - eps) * (r * eps - 4 * e) / (4 * r * eps)) by (field; lra).
      assert (0 <= (r - eps) * (r * eps - 4 * e) / (4 * r * eps)); [|lra].
      apply Rmult_le_pos; [apply Rmult_le_pos; nra|]. left. apply Rinv_0_lt_compat. apply Rmult_lt_0_compat; lra.
    + assert (D : e / r + r / 4 - sqrt e = (sqrt e - r / 2) * (sqrt e - r / 2) / r). { rewrite <- (sqrt_sqrt e) at 1 by auto. field. lra. }
      assert (0 <= (sqrt e - r / 2) * (sqrt e - r / 2) / r); [|lra]. apply Rmult_le_pos; [apply Rle_0_sqr|]. left. now apply Rinv_0_lt_compat.
  - destruct (Rlt_dec (e / INR F) eps) as [L|N].
    + assert (E : e < eps * INR F). { replace e with (e / INR F * INR F) by (field; lra). now apply Rmult_lt_compat_r. }
      pose proof (ln_le_minus (eps / r)) as Q. rewrite ln_quot in Q by lra. assert (Z : 0 < eps / r) by (apply Rdiv_lt_0_compat; lra). specialize (Q Z).
      assert (A : 0 <= 1 - eps / r) by (assert (eps / r <= 1) by (apply div_le; lra); lra).
      assert (B : e / eps - e / r <= INR F * (1 - eps / r)).
      { replace (e / eps - e / r) with (e / eps * (1 - eps / r)) by (field; lra). apply Rmult_le_compat_r; auto. apply div_le; lra. }
      assert (Gl : INR F * (1 - eps / r) <= INR F * (ln r - ln eps)) by (apply Rmult_le_compat_l; lra). lra.
    + assert (E : 0 < e / INR F) by lra. pose proof (ln_le_minus (e / INR F / r)) as Q. rewrite ln_quot in Q by lra.
      assert (Z : 0 < e / INR F / r) by (apply Rdiv_lt_0_compat; lra). specialize (Q Z). apply (Rmult_le_compat_l (INR F)) in Q; [|lra].
      replace (INR F * (e / INR F / r - 1)) with (e / r - INR F) in Q by (field; lra). lra.
Qed.

(** ** The auxiliary function *)
Section Aux.
Variables (F M T : nat) (model : source_model) (eps : R) (X : nat -> nat -> nat -> C) (D : mat -> C).
Hypotheses (He : 0 < eps) (HF : (0 < F)%nat) (HD : alternating M D).
Let energy (W : nat -> mat) (s t : nat) : R := bsum F (fun f => Cabs2 (demix M X W f s t)).
Definition aux (Y : nat -> nat -> nat -> C) (W : nat -> mat) : R :=
  bsum M (fun s => / INR T * bsum T (fun t => weight F model eps Y s t * energy W s t + offset model F (floored model F eps (bsum F (fun f => Cabs2 (Y f s t)))))) -
  bsum F (fun f => ln (Cabs2 (D (W f)))).
Lemma energy_pos : forall W s t, 0 <= energy W s t.
Proof. intros. apply bsum_nonneg. intros. apply Cabs2_nonneg. Qed.
Lemma weight_eq : forall Y s t, weight F model eps Y s t = / floored model F eps (bsum F (fun f => Cabs2 (Y f s t))).
Proof. intros. unfold weight, floored. unfold Rdiv at 1. destruct model; rewrite Rmult_1_l; reflexivity. Qed.
Lemma weight_nonneg : forall Y s t, 0 <= weight F model eps Y s t.
Proof. intros. rewrite weight_eq. left. apply Rinv_0_lt_compat. pose proof (floored_ge model F eps (bsum F (fun f => Cabs2 (Y f s t)))). lra. Qed.
Lemma inv_INR_nonneg : forall n, (0 < n)%nat -> 0 <= / INR n.
Proof. intros. left. apply Rinv_0_lt_compat. now apply lt_0_INR. Qed.
Lemma Tscal_le : forall a b, (T = 0%nat -> a = b) -> a <= b -> / INR T * a <= / INR T * b.
Proof. intros a b Z H. destruct T; [rewrite Z; [lra|auto]|]. apply Rmult_le_compat_l; auto. apply inv_INR_nonneg. lia. Qed.
Lemma objective_aux : forall Y W, objective model F M T eps X D W <= aux Y W.
Proof.
  intros Y W. unfold objective, aux. apply Rplus_le_compat_r. apply bsum_le. intros s _. apply Tscal_le; [intros ->; reflexivity|]. apply bsum_le. intros t _.
  rewrite weight_eq. rewrite (Rmult_comm (/ _)). apply contrast_below; auto; [apply energy_pos|apply floored_ge].
Qed.
Lemma aux_self : forall W, aux (demix M X W) W = objective model F M T eps X D W.
Proof.
  intros W. unfold objective, aux. f_equal. apply bsum_ext. intros s _. f_equal. apply bsum_ext. intros t _. rewrite weight_eq. rewrite (Rmult_comm (/ _)).
  symmetry. apply contrast_at; auto. apply energy_pos.
Qed.
(** as sum of forms *)
Lemma aux_q : forall Y W, aux Y W = bsum M (fun s => bsum F (fun f => q M T (weight F model eps Y s) (X f) (W f s))) +
  bsum M (fun s => / INR T * bsum T (fun t => offset model F (floored model F eps (bsum F (fun f => Cabs2 (Y f s t)))))) - bsum F (fun f => ln (Cabs2 (D (W f)))).
Proof.
  intros Y W. unfold aux. f_equal. rewrite <- bsum_plus. apply bsum_ext. intros s _. rewrite bsum_plus, Rmult_plus_distr_l. f_equal.
  unfold q. rewrite bsum_scal. f_equal. rewrite bsum_swap. apply bsum_ext. intros t _. unfold energy. now rewrite bsum_scal.
Qed.
Variable solve : nat -> mat -> (nat -> C) -> option (nat -> C).
Hypothesis Hsolve : is_solve solve.
Lemma source_decreases : forall Y W s W', (s < M)%nat -> (forall f, (f < F)%nat -> D (W f) <> C0) ->
  update_source solve F M M T model eps X Y W s = Some W' ->
  (forall f, (f < F)%nat -> D (W' f) <> C0) /\ aux Y W' <= aux Y W.
Proof.
  intros Y W s W' Hs HW H. unfold update_source in H. destruct (for_all_f F _) as [W1|] eqn:E; [|discriminate]. cbn [bind] in H.
  rewrite Nat.ltb_irrefl in H. inversion H; subst W1; clear H.
  assert (Rw0 : forall f, (f < F)%nat -> exists row, new_row solve M (W f) (weighted T X (weight F model eps Y s) f) s = Some row /\ W' f = set_row (W f) s row).
  { intros f Hf. pose proof (for_all_f_Some _ _ _ E f Hf) as Q. cbv beta in Q. destruct (new_row _ _ _ _ _) as [row|]; [|discriminate]. cbn in Q. inversion Q. eauto. }
  assert (B : forall f, (f < F)%nat -> D (W' f) <> C0 /\ q M T (weight F model eps Y s) (X f) (W' f s) - ln (Cabs2 (D (W' f))) <= q M T (weight F model eps Y s) (X f) (W f s) - ln (Cabs2 (D (W f))) /\
    forall i, i <> s -> q M T (weight F model eps Y i) (X f) (W' f i) = q M T (weight F model eps Y i) (X f) (W f i)).
  { intros f Hf. destruct (Rw0 f Hf) as (row & Er & Ew). destruct (new_row_facts _ _ _ _ _ _ _ _ _ Hsolve (weight_nonneg Y s) Hs Er) as (_ & _ & Fa).
    destruct (Fa D HD (HW f Hf)) as [N Op]. rewrite Ew. split; [auto|split].
    - assert (Dw : D (set_row (W f) s (W f s)) = D (W f)) by (apply (alt_ext M D HD); intros a b _ _; unfold set_row; destruct (Nat.eqb_spec a s); congruence).
      specialize (Op (W f s)). rewrite Dw in Op. specialize (Op (HW f Hf)).
      assert (Rw : set_row (W f) s row s = row) by (unfold set_row; rewrite Nat.eqb_refl; reflexivity). rewrite Rw. exact Op.
    - intros i Ni. assert (Rw : set_row (W f) s row i = W f i) by (unfold set_row; destruct (Nat.eqb_spec i s); [contradiction|reflexivity]). now rewrite Rw. }
  split; [intros f Hf; apply B, Hf|]. rewrite !aux_q.
  assert (Ext : forall G : nat -> R, bsum M G = bsum M (fun i => if Nat.eqb i s then 0 else G i) + G s).
  { intros G. rewrite (bsum_ext M G (fun i => (if Nat.eqb i s then 0 else G i) + (if Nat.eqb i s then G s else 0))) at 1 by (intros i _; destruct (Nat.eqb_spec i s) as [->|]; lra).
    rewrite bsum_plus. f_equal. rewrite (bsum_delta M s); auto; [now rewrite Nat.eqb_refl|]. intros i _ Ni. destruct (Nat.eqb_spec i s); congruence. }
  rewrite (Ext (fun i => bsum F (fun f => q M T (weight F model eps Y i) (X f) (W' f i)))).
  rewrite (Ext (fun i => bsum F (fun f => q M T (weight F model eps Y i) (X f) (W f i)))).
  rewrite (bsum_ext M (fun i => if Nat.eqb i s then 0 else bsum F (fun f => q M T (weight F model eps Y i) (X f) (W' f i))) (fun i => if Nat.eqb i s then 0 else bsum F (fun f => q M T (weight F model eps Y i) (X f) (W f i)))).
  2:{ intros i _. destruct (Nat.eqb_spec i s); auto. apply bsum_ext. intros f Hf. now apply B. }
  assert (Le : bsum F (fun f => q M T (weight F model eps Y s) (X f) (W' f s) - ln (Cabs2 (D (W' f)))) <= bsum F (fun f => q M T (weight F model eps Y s) (X f) (W f s) - ln (Cabs2 (D (W f))))) by (apply bsum_le; intros f Hf; now apply B).
  rewrite !bsum_minus in Le. lra.
Qed.
Lemma epoch_decreases : forall W W', (forall f, (f < F)%nat -> D (W f) <> C0) -> epoch solve F M M T model eps X W = Some W' ->
  (forall f, (f < F)%nat -> D (W' f) <> C0) /\ objective model F M T eps X D W' <= objective model F M T eps X D W.
Proof.
  intros W W' HW H. unfold epoch in H. set (Y := demix M X W) in *.
  assert (G : forall l W0, (forall s, In s l -> (s < M)%nat) -> (forall f, (f < F)%nat -> D (W0 f) <> C0) -> foldM (update_source solve F M M T model eps X Y) l W0 = Some W' ->
    (forall f, (f < F)%nat -> D (W' f) <> C0) /\ aux Y W' <= aux Y W0).
  { clear HW H. intros l. induction l as [|s l IH]; intros W0 Hl H0 E; cbn in E; [inversion E; subst; split; [auto|lra]|].
    destruct (update_source _ _ _ _ _ _ _ _ _ _ _) as [W1|] eqn:E1; [|discriminate]. cbn in E.
    destruct (source_decreases Y W0 s W1 (Hl s (or_introl eq_refl)) H0 E1) as [N1 L1]. destruct (IH W1 (fun i Hi => Hl i (or_intror Hi)) N1 E) as [N2 L2]. split; [auto|lra]. }
  destruct (G (seq 0 M) W) as [N L]; auto; [intros s Hs; apply in_seq in Hs; lia|]. split; auto.
  pose proof (objective_aux Y W'). unfold Y in L. rewrite (aux_self W) in L. fold Y in L. lra.
Qed.
Lemma epochs_decrease : forall n W W', (forall f, (f < F)%nat -> D (W f) <> C0) -> epochs solve F M M T model eps X n W = Some W' ->
  (forall f, (f < F)%nat -> D (W' f) <> C0) /\ objective model F M T eps X D W' <= objective model F M T eps X D W.
Proof.
  induction n as [|n IH]; intros W W' HW H; cbn in H; [inversion H; subst; split; [auto|lra]|].
  destruct (epoch _ _ _ _ _ _ _ _ W) as [W1|] eqn:E; [|discriminate]. cbn in H. destruct (epoch_decreases W W1 HW E) as [N L]. destruct (IH W1 W' N H). split; [auto|lra].
Qed.
End Aux.

(** ** What one epoch does to the rows *)
Lemma form_ext_l : forall M V u u' w, (forall c, (c < M)%nat -> u c = u' c) -> form M V u w = form M V u' w.
Proof. intros M V u u' w H. unfold form. apply csum_ext. intros d _. f_equal. apply csum_ext. intros c Hc. now rewrite H. Qed.
Lemma form_ext_r : forall M V u w w', (forall c, (c < M)%nat -> w c = w' c) -> form M V u w = form M V u w'.
Proof. intros M V u w w' H. unfold form. apply csum_ext. intros d Hd. now rewrite H. Qed.

Section Rows.
Variables (solve : nat -> mat -> (nat -> C) -> option (nat -> C)) (F M S T : nat) (model : source_model) (eps : R) (X : nat -> nat -> nat -> C).
Hypotheses (Hsolve : is_solve solve) (He : 0 < eps) (HS : (S <= M)%nat).
Lemma update_J_rows : forall W W', update_J solve F M S T X W = Some W' -> forall f r d, (f < F)%nat -> ((r < S)%nat \/ (S <= d)%nat) -> W' f r d = W f r d.
Proof.
  intros W W' H f r d Hf Hr. unfold update_J in H. pose proof (for_all_f_Some _ _ _ H f Hf) as E. cbv beta in E. unfold update_J_f in E.
  destruct (mapM _ _) as [z|]; [|discriminate]. cbn [bind] in E. injection E as E'. rewrite <- E'. destruct (Nat.leb_spec S r); destruct (Nat.ltb_spec d S); cbn; auto; lia.
Qed.
Lemma update_J_orth : forall W W', (S < M)%nat -> update_J solve F M S T X W = Some W' ->
  (forall f i d, (f < F)%nat -> (i < M - S)%nat -> (d < M - S)%nat -> W f (S + i)%nat (S + d)%nat = if Nat.eqb i d then Copp C1 else C0) ->
  forall f k i, (f < F)%nat -> (k < S)%nat -> (i < M - S)%nat -> form M (covariance T X f) (W' f k) (W' f (S + i)%nat) = C0.
Proof.
  intros W W' Hlt H HI f k i Hf Hk Hi. pose proof (update_J_rows _ _ H) as Rows. unfold update_J in H. pose proof (for_all_f_Some _ _ _ H f Hf) as E. cbv beta in E. unfold update_J_f in E.
  set (Cx := covariance T X f) in *. set (tmp := fun k d => csum M (fun c => (W f k c * Cx c d)%C)) in *.
  destruct (mapM _ _) as [z|] eqn:Ez; [|discriminate]. cbn [bind] in E. injection E as E'.
  destruct (mapM_seq_nth _ _ (fun _ => C0) _ _ Ez) as [Lz Nz]. specialize (Nz i Hi). apply Hsolve in Nz. destruct Nz as [_ Nz]. specialize (Nz k Hk). cbv beta in Nz.
  rewrite (form_ext_l M Cx _ (W f k)) by (intros; apply Rows; auto). unfold form.
  rewrite (csum_ext M _ (fun d => (tmp k d * Conj (W' f (S + i)%nat d))%C)) by reflexivity.
  replace M with (S + (M - S))%nat at 1 by lia. rewrite csum_split.
  rewrite (csum_ext S _ (fun d => (tmp k d * nth i z (fun _ => C0) d)%C)).
  2:{ intros d Hd. rewrite <- E'. destruct (Nat.leb_spec S (S + i)); [|lia]. destruct (Nat.ltb_spec d S); [|lia]. cbn [andb]. rewrite Conj_conj. do 3 f_equal. lia. }
  change (csum M (fun c => (W f k c * Cx c (S + i)%nat)%C)) with (tmp k (S + i)%nat) in Nz. rewrite Nz. rewrite (csum_ext (M - S) _ (fun d => (Copp (unit_vec i d * tmp k (S + d)%nat))%C)).
  2:{ intros d Hd. rewrite Rows by (auto; lia). rewrite HI by auto. unfold unit_vec. rewrite (Nat.eqb_sym d i). destruct (i =? d)%nat; apply C_eq; cbn; ring. }
  rewrite (csum_ext (M - S) _ (fun d => (Copp C1 * (unit_vec i d * tmp k (S + d)%nat))%C)) by (intros; ring).
  rewrite csum_scal, (csum_delta_l (M - S) i (fun d => tmp k (S + d)%nat)) by auto. ring.
Qed.
Definition corner (W : nat -> mat) : Prop := forall f i d, (f < F)%nat -> (i < M - S)%nat -> (d < M - S)%nat -> W f (S + i)%nat (S + d)%nat = if Nat.eqb i d then Copp C1 else C0.
Definition uncorrelated (W : nat -> mat) : Prop := forall f k i, (f < F)%nat -> (k < S)%nat -> (i < M - S)%nat -> form M (covariance T X f) (W f k) (W f (S + i)%nat) = C0.

Lemma update_source_rows : forall Y W s W', (s < S)%nat -> update_source solve F M S T model eps X Y W s = Some W' -> forall f, (f < F)%nat ->
  let V := weighted T X (weight F model eps Y s) f in
  (forall k c, (k < S)%nat -> k <> s -> W' f k c = W f k c) /\ form M V (W' f s) (W' f s) = C1 /\ (forall k, (k < S)%nat -> k <> s -> form M V (W f k) (W' f s) = C0).
Proof.
  intros Y W s W' Hs H f Hf V. unfold update_source in H. destruct (for_all_f F _) as [W1|] eqn:E; [|discriminate]. cbn [bind] in H.
  pose proof (for_all_f_Some _ _ _ E f Hf) as Q. cbv beta in Q. fold V in Q. destruct (new_row _ _ _ _ _) as [row|] eqn:Er; [|discriminate]. cbn [bind] in Q. injection Q as Q1.
  destruct (new_row_facts _ _ _ _ _ _ _ _ _ Hsolve (weight_nonneg F model eps He Y s) (Nat.lt_le_trans _ _ _ Hs HS) Er) as (No & Or & _). fold V in No, Or.
  assert (K : forall k c, (k < S)%nat -> W' f k c = W1 f k c).
  { intros k c Hk. destruct (Nat.ltb_spec S M); [|now inversion H]. apply (update_J_rows _ _ H); auto. }
  assert (Ks : forall c, W' f s c = row c). { intros c. rewrite K by auto. rewrite <- Q1. unfold set_row. now rewrite Nat.eqb_refl. }
  split; [|split].
  - intros k c Hk Ne. rewrite K by auto. rewrite <- Q1. unfold set_row. destruct (Nat.eqb_spec k s); [contradiction|auto].
  - rewrite (form_ext_l M V _ row) by auto. rewrite (form_ext_r M V row _ row) by auto. exact No.
  - intros k Hk Ne. rewrite (form_ext_r M V _ _ row) by auto. apply Or; [lia|auto].
Qed.
Lemma update_source_back : forall Y W s W', (s < S)%nat -> (S < M)%nat -> corner W -> update_source solve F M S T model eps X Y W s = Some W' -> corner W' /\ uncorrelated W'.
Proof.
  intros Y W s W' Hs Hlt Co H. unfold update_source in H. destruct (for_all_f F _) as [W1|] eqn:E; [|discriminate]. cbn [bind] in H. destruct (Nat.ltb_spec S M); [|lia].
  assert (C1' : corner W1).
  { intros f i d Hf Hi Hd. rewrite <- (Co f i d Hf Hi Hd). pose proof (for_all_f_Some _ _ _ E f Hf) as Q. cbv beta in Q. destruct (new_row _ _ _ _ _) as [row|] eqn:Er; [|discriminate]. cbn [bind] in Q. injection Q as Q1.
    rewrite <- Q1. unfold set_row. destruct (Nat.eqb_spec (S + i) s); [lia|auto]. }
  split; [|exact (update_J_orth W1 W' Hlt H C1')].
  intros f i d Hf Hi Hd. rewrite (update_J_rows _ _ H) by (auto; lia). now apply C1'.
Qed.
Lemma init_back : forall W0 W, (S < M)%nat -> init solve F M S T X W0 = Some W -> corner W /\ uncorrelated W.
Proof.
  intros W0 W Hlt H. unfold init in H. set (Wi := fun f s c => if (s <? S)%nat then match W0 with Some w => w f s c | None => if (s =? c)%nat then C1 else C0 end else C0) in *.
  destruct (Nat.ltb_spec S M); [|lia]. destruct (update_J solve F M S T X Wi) as [W1|] eqn:E; [|discriminate]. cbn [bind] in H. inversion H; subst W; clear H. split.
  - intros f i d Hf Hi Hd. destruct (Nat.leb_spec S (S + i)); [|lia]. destruct (Nat.leb_spec S (S + d)); [|lia]. cbn. destruct (Nat.eqb_spec i d) as [->|]; [now rewrite Nat.eqb_refl|]. destruct (Nat.eqb_spec (S + i) (S + d)); [lia|auto].
  - (* the solve of update_J does not read the corner *)
    set (Wc := fun f r d => if (S <=? r)%nat && (S <=? d)%nat then (if Nat.eqb r d then Copp C1 else C0) else Wi f r d).
    intros f k i Hf Hk Hi. pose proof (update_J_rows _ _ E) as Rows. unfold update_J in E. pose proof (for_all_f_Some _ _ _ E f Hf) as Q. cbv beta in Q. unfold update_J_f in Q.
    set (Cx := covariance T X f) in *. set (tmp := fun k d => csum M (fun c => (Wi f k c * Cx c d)%C)) in *.
    destruct (mapM _ _) as [z|] eqn:Ez; [|discriminate]. cbn [bind] in Q. injection Q as E'.
    destruct (mapM_seq_nth _ _ (fun _ => C0) _ _ Ez) as [Lz Nz]. specialize (Nz i Hi). apply Hsolve in Nz. destruct Nz as [_ Nz]. specialize (Nz k Hk). cbv beta in Nz.
    rewrite (form_ext_l M Cx _ (Wi f k)).
    2:{ intros c Hc. destruct (Nat.leb_spec S k); [lia|]. cbn. apply (Rows f k c Hf). auto. }
    unfold form. rewrite (csum_ext M _ (fun d => (tmp k d * Conj ((if (S <=? S + i)%nat && (S <=? d)%nat then if (S + i =? d)%nat then Copp C1 else C0 else W1 f (S + i)%nat d)))%C)) by reflexivity.
    replace M with (S + (M - S))%nat at 1 by lia. rewrite csum_split.
    rewrite (csum_ext S _ (fun d => (tmp k d * nth i z (fun _ => C0) d)%C)).
    2:{ intros d Hd. destruct (Nat.leb_spec S d); [lia|]. rewrite andb_false_r. rewrite <- E'. destruct (Nat.leb_spec S (S + i)); [|lia]. destruct (Nat.ltb_spec d S); [|lia]. cbn [andb]. rewrite Conj_conj. do 3 f_equal. lia. }
    change (csum M (fun c => (Wi f k c * Cx c (S + i)%nat)%C)) with (tmp k (S + i)%nat) in Nz. rewrite Nz. rewrite (csum_ext (M - S) _ (fun d => (Copp C1 * (unit_vec i d * tmp k (S + d)%nat))%C)).
    2:{ intros d Hd. destruct (Nat.leb_spec S (S + i)); [|lia]. destruct (Nat.leb_spec S (S + d)); [|lia]. cbn [andb]. unfold unit_vec. destruct (Nat.eqb_spec d i) as [->|]; [rewrite Nat.eqb_refl|destruct (Nat.eqb_spec (S + i) (S + d)); [lia|]]; apply C_eq; cbn; ring. }
    rewrite csum_scal, (csum_delta_l (M - S) i (fun d => tmp k (S + d)%nat)) by auto. ring.
Qed.
Lemma epochs_back : forall n W W', (S < M)%nat -> corner W /\ uncorrelated W -> epochs solve F M S T model eps X n W = Some W' -> corner W' /\ uncorrelated W'.
Proof.
  intros n. induction n as [|n IH]; intros W W' Hlt Hb H; cbn in H; [inversion H; now subst|].
  destruct (epoch _ _ _ _ _ _ _ _ W) as [W1|] eqn:E; [|discriminate]. cbn in H. apply (IH W1); auto. unfold epoch in E. set (Y := demix M X W) in *. clearbody Y.
  assert (G : forall l Wa, (forall s, In s l -> (s < S)%nat) -> corner Wa /\ uncorrelated Wa -> foldM (update_source solve F M S T model eps X Y) l Wa = Some W1 -> corner W1 /\ uncorrelated W1).
  { intros l. induction l as [|s l IHl]; intros Wa Hl Ha Eq; cbn in Eq; [inversion Eq; now subst|].
    destruct (update_source _ _ _ _ _ _ _ _ _ _ _) as [Wb|] eqn:Eb; [|discriminate]. cbn in Eq. apply (IHl Wb); [intros; apply Hl; now right| |auto].
    apply (update_source_back Y Wa s Wb); auto; [apply Hl; now left|apply Ha]. }
  apply (G (seq 0 S) W); auto. intros s Hs. apply in_seq in Hs. lia.
Qed.
Lemma epoch_rows : forall Y n a Wa W', (a + n = S)%nat -> foldM (update_source solve F M S T model eps X Y) (seq a n) Wa = Some W' -> forall f, (f < F)%nat ->
  (forall k c, (k < a)%nat -> W' f k c = Wa f k c) /\
  forall s, (a <= s < S)%nat -> let V := weighted T X (weight F model eps Y s) f in
    form M V (W' f s) (W' f s) = C1 /\ (forall k, (k < s)%nat -> form M V (W' f k) (W' f s) = C0) /\ (forall k, (s < k < S)%nat -> form M V (Wa f k) (W' f s) = C0).
Proof.
  intros Y n. induction n as [|n IH]; intros a Wa W' Ha H f Hf; cbn in H.
  - inversion H; subst. split; [auto|]. intros s Hs. lia.
  - destruct (update_source solve F M S T model eps X Y Wa a) as [W1|] eqn:E; [|discriminate]. cbn in H.
    destruct (update_source_rows Y Wa a W1 ltac:(lia) E f Hf) as (Un & No & Or). destruct (IH (Datatypes.S a) W1 W' ltac:(lia) H f Hf) as [Un' St].
    split; [intros k c Hk; rewrite Un' by lia; apply Un; lia|].
    intros s Hs V. destruct (Nat.eq_dec s a) as [->|Ne].
    + fold V in No, Or. rewrite (form_ext_l M V _ (W1 f a)) by (intros; apply Un'; lia). rewrite (form_ext_r M V _ _ (W1 f a)) by (intros; apply Un'; lia). split; [auto|split].
      * intros k Hk. rewrite (form_ext_r M V _ _ (W1 f a)) by (intros; apply Un'; lia). rewrite (form_ext_l M V _ (Wa f k)) by (intros; rewrite Un' by lia; apply Un; lia). apply Or; lia.
      * intros k Hk. rewrite (form_ext_r M V _ _ (W1 f a)) by (intros; apply Un'; lia). apply Or; lia.
    + destruct (St s ltac:(lia)) as (A & B & D). fold V in A, B, D. split; [auto|split; auto]. intros k Hk. rewrite <- (D k Hk). apply form_ext_l. intros c _. symmetry. apply Un; lia.
Qed.
End Rows.
