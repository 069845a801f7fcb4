(** Lemmas on the matrices of FRIDA. *)
From Coq Require Import List ZArith Lia Reals Lra Bool Permutation.
From Verif Require Import Base BaseProofs Sum Cpx SphereModel SphereProps FridaModel.
Import ListNotations.
Local Open Scope R_scope.

(** A Hermitian sequence x_0 .. x_n (x_i the conjugate of x_(n - i)) written as n + 1 real numbers: the real parts of
    x_0 .. x_(n / 2), then the imaginary parts of those before the middle. *)
Definition expand (n : nat) (v : nat -> R) (i : nat) : C :=
  (v (Nat.min i (n - i)),
   if Nat.ltb (2 * i) n then v (n / 2 + 1 + i)%nat else if Nat.eqb (2 * i) n then 0 else - v (n / 2 + 1 + (n - i))%nat).
Definition hermitian (n : nat) (x : nat -> C) : Prop := forall i, (i <= n)%nat -> x i = Conj (x (n - i)%nat).
(** the half vector of a sequence *)
Definition halve (n : nat) (x : nat -> C) (r : nat) : R :=
  if Nat.ltb r (n / 2 + 1) then fst (x r) else snd (x (r - (n / 2 + 1))%nat).
(** the samples of the convolution of x_0, x_1, .. with the filter h_0 .. h_K where the filter fits *)
Definition conv (K : nat) (x h : nat -> C) (n : nat) : C := csum (K + 1) (fun k => Cmul (h k) (x (K + n - k)%nat)).

Ltac ltb_cases := repeat match goal with
  | |- context [Nat.ltb ?a ?b] => destruct (Nat.ltb_spec a b)
  | |- context [Nat.leb ?a ?b] => destruct (Nat.leb_spec a b)
  | |- context [Nat.eqb ?a ?b] => destruct (Nat.eqb_spec a b)
  end.

Lemma half_lt n : (2 * (n / 2) <= n /\ n < 2 * (n / 2) + 2)%nat.
Proof. pose proof (Nat.div_mod n 2 ltac:(lia)). pose proof (Nat.mod_upper_bound n 2 ltac:(lia)). lia. Qed.

Lemma expand_hermitian n v : hermitian n (expand n v).
Proof.
  intros i Hi. unfold expand, Conj. cbn [fst snd].
  replace (n - (n - i))%nat with i by lia. rewrite (Nat.min_comm (n - i) i). f_equal.
  ltb_cases; try lia; try lra.
Qed.

Lemma halve_expand n v r : (r <= n)%nat -> halve n (expand n v) r = v r.
Proof.
  intro Hr. unfold halve, expand. cbn [fst snd]. pose proof (half_lt n).
  ltb_cases; try lia; f_equal; lia.
Qed.
Lemma expand_halve n x i : hermitian n x -> (i <= n)%nat -> expand n (halve n x) i = x i.
Proof.
  intros H Hi. pose proof (half_lt n) as Hh. pose proof (H i Hi) as E. unfold expand.
  assert (A : fst (x i) = fst (x (n - i)%nat)) by (rewrite E at 1; reflexivity).
  assert (B : snd (x i) = - snd (x (n - i)%nat)) by (rewrite E at 1; reflexivity).
  apply C_eq; cbn [fst snd].
  - unfold halve. destruct (Nat.ltb_spec (Nat.min i (n - i)) (n / 2 + 1)); [|lia].
    destruct (Nat.min_spec i (n - i)) as [[? ->]|[? ->]]; congruence.
  - unfold halve. ltb_cases; try lia.
    + f_equal. f_equal. lia.
    + replace (n - i)%nat with i in B by lia. lra.
    + rewrite B. f_equal. f_equal. f_equal. lia.
Qed.

Lemma hermitian_zero n x : hermitian n x -> (forall r, (r <= n)%nat -> halve n x r = 0) -> forall i, (i <= n)%nat -> x i = C0.
Proof.
  intros H Z i Hi. rewrite <- (expand_halve n x i H Hi). pose proof (half_lt n) as Hh. unfold expand, C0.
  apply C_eq; cbn [fst snd].
  - apply Z. lia.
  - ltb_cases; try lra; try (apply Z; lia). rewrite (Z (n / 2 + 1 + (n - i))%nat) by lia. lra.
Qed.

(** ** Selecting one column *)
Lemma mv_sel n (A : mat) v i k : (k < n)%nat -> (forall j, (j < n)%nat -> j <> k -> A i j = 0) -> mv n A v i = A i k * v k.
Proof. intros Hk H. unfold mv. apply (bsum_delta n k (fun j => A i j * v j) Hk). intros j Hj N. rewrite (H j Hj N). lra. Qed.
Lemma mv_none n (A : mat) v i : (forall j, (j < n)%nat -> A i j = 0) -> mv n A v i = 0.
Proof. intro H. apply bsum_zero_ext. intros j Hj. rewrite (H j Hj). lra. Qed.
Lemma mv_hstack c1 c2 (A B : mat) v i : mv (c1 + c2) (hstack c1 A B) v i = mv c1 A v i + mv c2 B (fun j => v (c1 + j)%nat) i.
Proof.
  unfold mv, hstack. rewrite bsum_split. f_equal; apply bsum_ext; intros j Hj; ltb_cases; try lia; try reflexivity.
  replace (c1 + j - c1)%nat with j by lia. reflexivity.
Qed.
Lemma mv_vstack n r (A B : mat) v i : mv n (vstack r A B) v i = if Nat.ltb i r then mv n A v i else mv n B v (i - r).
Proof. unfold mv, vstack. destruct (Nat.ltb i r); reflexivity. Qed.
Lemma mv_zeros n v i : mv n zeros v i = 0.
Proof. apply mv_none. reflexivity. Qed.
Lemma mv_block r c1 c2 (A B : mat) v i :
  mv (c1 + c2) (block_diag r c1 A B) v i = if Nat.ltb i r then mv c1 A v i else mv c2 B (fun j => v (c1 + j)%nat) (i - r).
Proof. unfold block_diag. rewrite mv_vstack, !mv_hstack, !mv_zeros. destruct (Nat.ltb i r); lra. Qed.
Lemma mv_mm n p (A B : mat) v i : mv n (mm p A B) v i = mv p A (mv n B v) i.
Proof.
  unfold mv, mm.
  transitivity (bsum n (fun j => bsum p (fun k => A i k * B k j * v j))); [apply bsum_ext; intros; symmetry; apply bsum_scal_r|].
  rewrite bsum_swap. apply bsum_ext. intros k Hk. rewrite <- bsum_scal. apply bsum_ext. intros; ring.
Qed.
Lemma mv_neg n (A : mat) v i : mv n (neg A) v i = - mv n A v i.
Proof. unfold mv, neg. rewrite <- bsum_opp. apply bsum_ext. intros; ring. Qed.
Lemma mv_opp n (A : mat) v i : mv n A (fun j => - v j) i = - mv n A v i.
Proof. unfold mv. rewrite <- bsum_opp. apply bsum_ext. intros; ring. Qed.
Lemma mv_transpose_ip n m (A : mat) u v : ip m (mv n (transpose A) u) v = ip n u (mv m A v).
Proof.
  unfold ip, mv, transpose.
  transitivity (bsum m (fun i => bsum n (fun j => A j i * u j * v i))); [apply bsum_ext; intros; symmetry; apply bsum_scal_r|].
  rewrite bsum_swap. apply bsum_ext. intros j Hj. rewrite <- bsum_scal. apply bsum_ext. intros; ring.
Qed.

Ltac pick k := rewrite (mv_sel _ _ _ _ k); [|lia|intros; unfold vstack, neg, flip, flip_from1, hstack, zeros, eye; ltb_cases; try lia; try reflexivity; ring];
  unfold vstack, neg, flip, flip_from1, hstack, zeros, eye; ltb_cases; try lia.

(** the matrices of hermitian_expan *)
Lemma D1_mv h v i : (i < 2 * h - 1)%nat -> mv h (fst (hermitian_expan h)) v i = v (Nat.min i (2 * h - 2 - i)).
Proof.
  intro Hi. unfold hermitian_expan. cbn [fst]. destruct (Nat.ltb_spec i h).
  - pick i; [rewrite Nat.min_l by lia; ring].
  - pick (2 * h - 2 - i)%nat; [rewrite Nat.min_r by lia; ring].
Qed.
Lemma D2_mv h v i : (i < 2 * h - 1)%nat ->
  mv (h - 1) (snd (hermitian_expan h)) v i = if Nat.ltb (i + 1) h then v i else if Nat.eqb (i + 1) h then 0 else - v (2 * h - 2 - i)%nat.
Proof.
  intro Hi. unfold hermitian_expan. cbn [snd]. destruct (Nat.ltb_spec (i + 1) h); [|destruct (Nat.eqb_spec (i + 1) h)].
  - pick i. ring.
  - apply mv_none. intros j Hj. unfold vstack, neg, flip_from1, eye. ltb_cases; try lia; reflexivity.
  - pick (2 * h - 2 - i)%nat. ring.
Qed.

Lemma D_expand M v i : (i < 2 * M + 1)%nat ->
  (mv (2 * M + 1) (D M) v i, mv (2 * M + 1) (D M) v (2 * M + 1 + i)%nat) = expand (2 * M) v i.
Proof.
  intro Hi. unfold D.
  change (let '(D1, D2) := hermitian_expan (M + 1) in block_diag (2 * M + 1) (M + 1) D1 D2)
    with (block_diag (2 * M + 1) (M + 1) (fst (hermitian_expan (M + 1))) (snd (hermitian_expan (M + 1)))).
  set (D1 := fst _). set (D2 := snd _).
  replace (2 * M + 1)%nat with (M + 1 + M)%nat by lia. rewrite !mv_block.
  destruct (Nat.ltb_spec i (M + 1 + M)); [|lia]. destruct (Nat.ltb_spec (M + 1 + M + i) (M + 1 + M)); [lia|].
  replace (M + 1 + M + i - (M + 1 + M))%nat with i by lia.
  unfold D1, D2. rewrite D1_mv by lia. assert (Z : forall w u, mv M w u i = mv (M + 1 - 1) w u i) by (intros; f_equal; lia). rewrite Z, D2_mv by lia. unfold expand.
  replace (2 * (M + 1) - 2 - i)%nat with (2 * M - i)%nat by lia.
  replace (2 * M / 2)%nat with M by (rewrite Nat.mul_comm, Nat.div_mul; lia).
  f_equal. ltb_cases; try lia; reflexivity.
Qed.

Lemma even_half K : Nat.even K = true -> K = (2 * (K / 2))%nat.
Proof. intro E. apply Nat.even_spec in E. destruct E as [m ->]. rewrite (Nat.mul_comm 2 m), Nat.div_mul; lia. Qed.
Lemma odd_half K : Nat.even K = false -> K = (2 * (K / 2) + 1)%nat /\ ((K + 1) / 2 = K / 2 + 1)%nat.
Proof.
  intro E. assert (O : Nat.odd K = true) by (unfold Nat.odd; rewrite E; reflexivity). apply Nat.odd_spec in O. destruct O as [m ->].
  replace (2 * m + 1 + 1)%nat with ((m + 1) * 2)%nat by lia. rewrite Nat.div_mul by lia.
  replace (2 * m + 1)%nat with (1 + m * 2)%nat by lia. rewrite Nat.div_add by lia. change (1 / 2)%nat with 0%nat. lia.
Qed.

Lemma Dc_expand K v i : (i < K + 1)%nat ->
  (mv (K + 1) (D_coef K) v i, mv (K + 1) (D_coef K) v (K + 1 + i)%nat) = expand K v i.
Proof.
  intro Hi. unfold D_coef, coef_expan_mtx. destruct (Nat.even K) eqn:E.
  - pose proof (even_half K E) as EK. set (h := (K / 2)%nat) in *.
    change (vstack (h + 1) eye (flip_from1 (h + 1))) with (fst (hermitian_expan (h + 1))).
    change (vstack (h + 1) eye (neg (flip_from1 (h + 1)))) with (snd (hermitian_expan (h + 1))).
    set (D1 := fst _). set (D2 := snd _).
    assert (Y : forall w j, mv (K + 1) w v j = mv (h + 1 + h) w v j) by (intros; f_equal; lia).
    rewrite !Y, !mv_block. destruct (Nat.ltb_spec i (K + 1)); [|lia]. destruct (Nat.ltb_spec (K + 1 + i) (K + 1)); [lia|].
    replace (K + 1 + i - (K + 1))%nat with i by lia. unfold D1, D2. rewrite D1_mv by lia.
    assert (Z : forall w u, mv h w u i = mv (h + 1 - 1) w u i) by (intros; f_equal; lia). rewrite Z, D2_mv by lia. unfold expand. fold h.
    replace (2 * (h + 1) - 2 - i)%nat with (K - i)%nat by lia. f_equal. ltb_cases; try lia; reflexivity.
  - destruct (odd_half K E) as [EK EH]. rewrite EH. set (h := (K / 2)%nat) in *.
    assert (Y : forall w j, mv (K + 1) w v j = mv (h + 1 + (h + 1)) w v j) by (intros; f_equal; lia).
    rewrite !Y, !mv_block. destruct (Nat.ltb_spec i (K + 1)); [|lia]. destruct (Nat.ltb_spec (K + 1 + i) (K + 1)); [lia|].
    replace (K + 1 + i - (K + 1))%nat with i by lia. unfold expand. fold h. f_equal.
    + destruct (Nat.ltb_spec i (h + 1)); [pick i; rewrite Nat.min_l by lia; ring|pick (K - i)%nat; rewrite Nat.min_r by lia; ring].
    + destruct (Nat.ltb_spec (2 * i) K); [pick i; ring|]. destruct (Nat.eqb_spec (2 * i) K); [lia|]. pick (K - i)%nat. ring.
Qed.

(** output_shrink keeps the half vector of a Hermitian sequence *)
Lemma shrink_mv K L y r : (r < L - K)%nat ->
  mv (2 * (L - K)) (output_shrink K L) y r = halve (L - K - 1) (fun i => (y i, y (L - K + i)%nat)) r.
Proof.
  intro Hr. unfold output_shrink, halve. cbn [fst snd]. set (o := (L - K)%nat) in *. destruct (Nat.even o) eqn:E.
  - pose proof (even_half o E) as EO. set (h := (o / 2)%nat) in *.
    assert (EH : ((o - 1) / 2 + 1 = h)%nat).
    { assert (E2 : Nat.even (o - 1) = false).
      { destruct o as [|o']; [lia|]. replace (S o' - 1)%nat with o' by lia. rewrite Nat.even_succ in E. unfold Nat.odd in E. destruct (Nat.even o'); [discriminate E|reflexivity]. }
      destruct (odd_half (o - 1) E2). lia. }
    rewrite EH. assert (Y : forall w j, mv (2 * o) w y j = mv (h + h + (h + h)) w y j) by (intros; f_equal; lia). rewrite Y, mv_block.
    destruct (Nat.ltb_spec r h).
    + pick r. ring.
    + pick (r - h)%nat. rewrite Rmult_1_l. f_equal. lia.
  - destruct (odd_half o E) as [EO EH]. rewrite EH. set (h := (o / 2)%nat) in *.
    assert (E3 : ((o - 1) / 2 = h)%nat) by (replace (o - 1)%nat with (h * 2)%nat by lia; rewrite Nat.div_mul; lia).
    rewrite E3. assert (Y : forall w j, mv (2 * o) w y j = mv (h + 1 + (h + 1 - 1) + (h + 1 - 1 + (h + 1))) w y j) by (intros; f_equal; lia). rewrite Y, mv_block.
    destruct (Nat.ltb_spec r (h + 1)).
    + pick r. ring.
    + pick (r - (h + 1))%nat. rewrite Rmult_1_l. f_equal. lia.
Qed.

Lemma halve_ext n x y r : (r <= n)%nat -> (forall i, (i <= n)%nat -> x i = y i) -> halve n x r = halve n y r.
Proof. intros Hr H. unfold halve. pose proof (half_lt n). ltb_cases; rewrite H by lia; reflexivity. Qed.

(** ** Convolutions *)
Section Conv.
Variables K M : nat.
Hypothesis HKM : (K <= 2 * M)%nat.
Let L := (2 * M + 1)%nat.
Let o := (L - K)%nat.

Lemma conv_hermitian x h : hermitian (2 * M) x -> hermitian K h -> hermitian (2 * M - K) (conv K x h).
Proof.
  intros X H n Hn. unfold conv. rewrite csum_conj, csum_rev. apply csum_ext. intros k Hk. rewrite Conj_mul.
  replace (K + 1 - 1 - k)%nat with (K - k)%nat by lia. rewrite (H (K - k)%nat) by lia. replace (K - (K - k))%nat with k by lia. f_equal.
  rewrite (X (K + n - (K - k))%nat) by lia. f_equal. f_equal. lia.
Qed.

Lemma T_mv b c r : (r < o)%nat -> mv (K + 1) (Tmtx K M b) c r = halve (2 * M - K) (conv K (expand (2 * M) b) (expand K c)) r.
Proof.
  intro Hr. unfold Tmtx. rewrite !mv_mm. fold L o. unfold o. rewrite shrink_mv by (exact Hr).
  replace (2 * M - K)%nat with (L - K - 1)%nat by (unfold L; lia). fold o.
  apply halve_ext; [lia|]. intros n Hn.
  set (cc := mv (K + 1) (D_coef K) c).
  assert (EC : forall k, (k < K + 1)%nat -> expand K c k = (cc k, cc (K + 1 + k)%nat)) by (intros; symmetry; apply Dc_expand; assumption).
  assert (EB : forall i, (i < L)%nat -> expand (2 * M) b i = (mv L (D M) b i, mv L (D M) b (L + i)%nat)) by (intros; symmetry; apply D_expand; assumption).
  unfold Tmtx_ri. fold L o. set (bb := mv L (D M) b) in *.
  replace (2 * (K + 1))%nat with (K + 1 + (K + 1))%nat by lia. rewrite !mv_vstack, !mv_hstack, !mv_neg.
  destruct (Nat.ltb_spec n o); [|lia]. destruct (Nat.ltb_spec (o + n) o); [lia|]. replace (o + n - o)%nat with n by lia.
  assert (TE : forall (v : vect) k, (k < K + 1)%nat -> toeplitz (fun i => v (K + i)%nat) (fun i => v (K - i)%nat) n k = v (K + n - k)%nat).
  { intros v k Hk. unfold toeplitz. ltb_cases; f_equal; lia. }
  unfold conv, csum. apply C_eq; cbn [fst snd].
  - unfold Rminus. rewrite <- mv_opp. unfold mv. rewrite <- bsum_plus. apply bsum_ext. intros k Hk.
    rewrite EC, EB by (unfold L, o in *; lia). rewrite (TE bb), (TE (fun i => bb (L + i)%nat)) by assumption. unfold Cmul. cbn [fst snd]. ring.
  - unfold mv. rewrite <- bsum_plus. apply bsum_ext. intros k Hk.
    rewrite EC, EB by (unfold L, o in *; lia). rewrite (TE bb), (TE (fun i => bb (L + i)%nat)) by assumption. unfold Cmul. cbn [fst snd]. ring.
Qed.

Lemma bsum_window n f : (n + (K + 1) <= L)%nat -> (forall m, (m < L)%nat -> (m < n \/ n + K < m)%nat -> f m = 0) ->
  bsum L f = bsum (K + 1) (fun k => f (K + n - k)%nat).
Proof.
  intros Hn H. assert (EL : L = (n + ((K + 1) + (L - (n + (K + 1)))))%nat) by lia. rewrite EL, (bsum_split n), (bsum_split (K + 1)).
  rewrite (bsum_zero_ext n f) by (intros; apply H; lia). rewrite (bsum_zero_ext (L - _)) by (intros; apply H; lia).
  rewrite Rplus_0_l, Rplus_0_r, (bsum_rev (K + 1)). apply bsum_ext. intros k Hk. f_equal. lia.
Qed.

Lemma R_mv b c r : (r < o)%nat -> mv L (Rmtx K M c) b r = halve (2 * M - K) (conv K (expand (2 * M) b) (expand K c)) r.
Proof.
  intro Hr. unfold Rmtx. rewrite !mv_mm. fold L o. unfold o. rewrite shrink_mv by (exact Hr).
  replace (2 * M - K)%nat with (L - K - 1)%nat by (unfold L; lia). fold o.
  apply halve_ext; [lia|]. intros n Hn.
  set (cc := mv (K + 1) (D_coef K) c).
  assert (EC : forall k, (k < K + 1)%nat -> expand K c k = (cc k, cc (K + 1 + k)%nat)) by (intros; symmetry; apply Dc_expand; assumption).
  assert (EB : forall i, (i < L)%nat -> expand (2 * M) b i = (mv L (D M) b i, mv L (D M) b (L + i)%nat)) by (intros; symmetry; apply D_expand; assumption).
  unfold Rmtx_ri. fold L o. rewrite !mv_mm. set (bb := mv L (D M) b) in *.
  replace (2 * L)%nat with (L + L)%nat by lia. rewrite !mv_vstack, !mv_hstack, !mv_neg.
  destruct (Nat.ltb_spec n o); [|lia]. destruct (Nat.ltb_spec (o + n) o); [lia|]. replace (o + n - o)%nat with n by lia.
  set (T := fun v : vect => toeplitz (fun i => if Nat.eqb i 0 then v K else 0) (fun i => if Nat.leb i K then v (K - i)%nat else 0)).
  assert (TE : forall (v : vect) (w : vect), mv L (T v) w n = bsum (K + 1) (fun k => v k * w (K + n - k)%nat)).
  { intros v w. unfold mv. rewrite (bsum_window n) by (unfold o in *; try lia; intros; unfold T, toeplitz; ltb_cases; try lia; ring).
    apply bsum_ext. intros k Hk. f_equal. unfold T, toeplitz. ltb_cases; try lia; f_equal; lia. }
  set (ci := fun i => cc (K + 1 + i)%nat). set (bi := fun j => bb (L + j)%nat).
  unfold conv, csum. apply C_eq; cbn [fst snd].
  - transitivity (mv L (T cc) bb n + - mv L (T ci) bi n); [reflexivity|]. rewrite !TE. unfold ci, bi. rewrite <- bsum_opp, <- bsum_plus. apply bsum_ext. intros k Hk.
    rewrite EC, EB by (unfold L, o in *; lia). unfold Cmul. cbn [fst snd]. ring.
  - transitivity (mv L (T ci) bb n + mv L (T cc) bi n); [reflexivity|]. rewrite !TE. unfold ci, bi. rewrite <- bsum_plus. apply bsum_ext. intros k Hk.
    rewrite EC, EB by (unfold L, o in *; lia). unfold Cmul. cbn [fst snd]. ring.
Qed.

Lemma R_zero b c : (forall r, (r < o)%nat -> mv L (Rmtx K M c) b r = 0) <-> (forall n, (n < o)%nat -> conv K (expand (2 * M) b) (expand K c) n = C0).
Proof.
  split; intros H.
  - assert (HC : hermitian (2 * M - K) (conv K (expand (2 * M) b) (expand K c))) by (apply conv_hermitian; apply expand_hermitian).
    intros n Hn. apply (hermitian_zero _ _ HC); [|unfold o, L in *; lia]. intros r Hr. rewrite <- R_mv by (unfold o, L; lia). apply H. unfold o, L. lia.
  - intros r Hr. rewrite R_mv by assumption. unfold halve. pose proof (half_lt (2 * M - K)). ltb_cases; rewrite H by (unfold o, L in *; lia); reflexivity.
Qed.
End Conv.

(** ** Least squares with a constraint *)
Definition solve_ok (solve : nat -> nat -> mat -> mat -> option mat) : Prop := forall n m A B X, solve n m A B = Some X ->
  forall i j, (i < n)%nat -> (j < m)%nat -> bsum n (fun k => A i k * X k j) = B i j.
Definition inv_ok (inv : nat -> mat -> option mat) : Prop := forall n A B, inv n A = Some B ->
  forall i j, (i < n)%nat -> (j < n)%nat -> bsum n (fun k => A i k * B k j) = kron i j.

Lemma ip_sub_l n u v w : ip n (fun i => u i - v i) w = ip n u w - ip n v w.
Proof. rewrite (ip_comm n _ w), ip_minus_r, (ip_comm n w u), (ip_comm n w v). reflexivity. Qed.
Lemma ip_self_nonneg n u : 0 <= ip n u u.
Proof. apply bsum_nonneg. intros. nra. Qed.
Lemma ip_self_zero n u : ip n u u = 0 -> forall i, (i < n)%nat -> u i = 0.
Proof.
  intros E i Hi. assert (H : forall m, (m <= n)%nat -> bsum m (fun i => u i * u i) = 0 -> forall k, (k < m)%nat -> u k = 0).
  { clear. induction m; intros Hm E k Hk; [lia|]. cbn [bsum] in E.
    assert (0 <= bsum m (fun i => u i * u i)) by (apply bsum_nonneg; intros; nra).
    assert (u m * u m = 0) by nra. destruct (Nat.eq_dec k m) as [->|]; [nra|]. apply IHm; try lia. nra. }
  apply (H n); auto.
Qed.
Lemma ip_zero_r n u v : (forall i, (i < n)%nat -> v i = 0) -> ip n u v = 0.
Proof. intro H. apply bsum_zero_ext. intros i Hi. rewrite (H i Hi). ring. Qed.
Lemma mv_zero_r n A v i : (forall j, (j < n)%nat -> v j = 0) -> mv n A v i = 0.
Proof. intro H. apply bsum_zero_ext. intros j Hj. rewrite (H j Hj). ring. Qed.

Lemma ip_kron n i v : (i < n)%nat -> ip n (kron i) v = v i.
Proof.
  intro Hi. unfold ip. rewrite (bsum_delta n i).
  - unfold kron. rewrite Nat.eqb_refl. ring.
  - exact Hi.
  - intros j Hj N. unfold kron. destruct (Nat.eqb_spec i j); [lia|ring].
Qed.

Section Fit.
Variables K M na : nat.
Hypothesis HKM : (K <= 2 * M)%nat.
Let L := (2 * M + 1)%nat.
Let o := (L - K)%nat.
Variable d : band.
Hypothesis Hinv : forall i j, (i < L)%nat -> (j < L)%nat -> bsum L (fun k => GtG na (b_G d) i k * b_inv d k j) = kron i j.
Let G := b_G d.
Let A := GtG na G.
Let B := b_inv d.
Let be := beta M na d.

Lemma A_mv v i : mv L A v i = mv na (transpose G) (mv L G v) i.
Proof. unfold A, GtG. apply mv_mm. Qed.
Lemma A_ip u v : ip L u (mv L A v) = ip na (mv L G u) (mv L G v).
Proof. rewrite (ip_ext L u (mv L A v) u (mv na (transpose G) (mv L G v))) by (auto; intros; apply A_mv). rewrite ip_comm, mv_transpose_ip, ip_comm. reflexivity. Qed.
Lemma AB v i : (i < L)%nat -> mv L A (mv L B v) i = v i.
Proof.
  intro Hi. rewrite mv_mv. transitivity (mv L kron v i); [|apply mv_kron; assumption]. unfold mv. apply bsum_ext. intros j Hj. f_equal. apply Hinv; assumption.
Qed.
Lemma B_sym u v : ip L u (mv L B v) = ip L (mv L B u) v.
Proof.
  transitivity (ip L (mv L A (mv L B u)) (mv L B v)); [apply ip_ext; auto; intros; symmetry; apply AB; assumption|].
  rewrite ip_comm, A_ip, ip_comm, <- A_ip. apply ip_ext; auto. intros; apply AB; assumption.
Qed.
Lemma BA v i : (i < L)%nat -> mv L B (mv L A v) i = v i.
Proof.
  intro Hi. assert (X : forall w, ip L w (mv L B (mv L A v)) = ip L w v).
  { intro w. rewrite B_sym, A_ip, ip_comm, <- A_ip, ip_comm. apply ip_ext; auto. intros; apply AB; assumption. }
  specialize (X (kron i)). rewrite !ip_kron in X by assumption. exact X.
Qed.
Lemma normal v : ip L v (mv na (transpose G) (b_a d)) = ip L v (mv L A be).
Proof. apply ip_ext; auto. intros. unfold be, beta. fold L B G. rewrite AB by assumption. reflexivity. Qed.
Lemma exact_beta b0 : (forall i, (i < na)%nat -> b_a d i = mv L G b0 i) -> forall i, (i < L)%nat -> be i = b0 i.
Proof.
  intros E i Hi. unfold be, beta. fold L B G. rewrite <- (BA b0 i Hi). apply mv_ext. intros j Hj. rewrite A_mv. apply mv_ext. intros; apply E; assumption.
Qed.

(** a weighting of the constraints R b = 0 *)
Variable Rc : mat.
Definition lift (y : vect) : vect := mv L B (mv o (transpose Rc) y).
Lemma Q_mv y i : mv o (R_GtGinv_Rt M Rc d) y i = mv L Rc (lift y) i.
Proof. unfold R_GtGinv_Rt. fold L B. rewrite mv_mm. apply mv_ext. intros j Hj. rewrite mv_mm. reflexivity. Qed.
Lemma Q_ip y z : ip o z (mv o (R_GtGinv_Rt M Rc d) y) = ip na (mv L G (lift z)) (mv L G (lift y)).
Proof.
  rewrite (ip_ext o z _ z (mv L Rc (lift y))) by (auto; intros; apply Q_mv).
  rewrite <- mv_transpose_ip.
  transitivity (ip L (mv L A (lift z)) (lift y)); [apply ip_ext; auto; intros; symmetry; apply AB; assumption|].
  rewrite ip_comm, A_ip, ip_comm. reflexivity.
Qed.

(** y solves (R GtG^-1 R^T) y = R beta; b = beta - GtG^-1 R^T y *)
Variable y : vect.
Hypothesis Hy : forall r, (r < o)%nat -> mv o (R_GtGinv_Rt M Rc d) y r = mv L Rc be r.
Definition fit : vect := fun i => be i - lift y i.
Definition residual (b : vect) : R := bsum na (fun i => (b_a d i - mv L G b i) * (b_a d i - mv L G b i)).

Lemma fit_constraint r : (r < o)%nat -> mv L Rc fit r = 0.
Proof. intro Hr. unfold fit. rewrite mv_minus, <- Q_mv, Hy by assumption. ring. Qed.
Lemma excess_lift : ip o (mv L Rc be) y = ip na (mv L G (lift y)) (mv L G (lift y)).
Proof. rewrite <- Q_ip, ip_comm. apply ip_ext; auto. intros; symmetry; apply Hy; assumption. Qed.
Lemma excess_nonneg : 0 <= ip o (mv L Rc be) y.
Proof. rewrite excess_lift. apply ip_self_nonneg. Qed.
Lemma excess_zero : ip o (mv L Rc be) y = 0 -> forall r, (r < o)%nat -> mv L Rc be r = 0.
Proof.
  rewrite excess_lift. intros E r Hr. rewrite <- (Hy r Hr), Q_mv. apply mv_zero_r. intros j Hj.
  pose proof (ip_self_zero na _ E) as Z. rewrite <- (BA (lift y) j Hj). apply mv_zero_r. intros k Hk. rewrite A_mv. apply mv_zero_r. exact Z.
Qed.
(** the same value for every solution *)
Lemma excess_unique z : (forall r, (r < o)%nat -> mv o (R_GtGinv_Rt M Rc d) z r = mv L Rc be r) -> ip o (mv L Rc be) z = ip o (mv L Rc be) y.
Proof.
  intro Hz. transitivity (ip o (mv o (R_GtGinv_Rt M Rc d) y) z); [apply ip_ext; auto; intros; symmetry; apply Hy; assumption|].
  rewrite ip_comm, Q_ip, ip_comm, <- Q_ip, ip_comm. apply ip_ext; auto.
Qed.
Lemma residual_ip b : residual b = ip na (fun i => b_a d i - mv L G b i) (fun i => b_a d i - mv L G b i).
Proof. reflexivity. Qed.
Lemma residual_expand b v :
  residual (fun i => b i + v i) = residual b - 2 * ip L v (fun i => mv na (transpose G) (b_a d) i - mv L A b i) + ip na (mv L G v) (mv L G v).
Proof.
  assert (X : ip L v (fun i => mv na (transpose G) (b_a d) i - mv L A b i) = ip na (mv L G v) (fun i => b_a d i - mv L G b i)).
  { rewrite !ip_minus_r, A_ip, (ip_comm L v), mv_transpose_ip, (ip_comm na (b_a d)). reflexivity. }
  rewrite X. unfold residual, ip. rewrite <- bsum_scal. unfold Rminus. rewrite <- bsum_opp, <- !bsum_plus. apply bsum_ext. intros i Hi. rewrite mv_plus. ring.
Qed.
Lemma residual_ext b b' : (forall i, (i < L)%nat -> b i = b' i) -> residual b = residual b'.
Proof. intro E. unfold residual. apply bsum_ext. intros i Hi. rewrite (mv_ext L G b b' i E). reflexivity. Qed.
Lemma residual_beta v : residual (fun i => be i + v i) = residual be + ip na (mv L G v) (mv L G v).
Proof. rewrite residual_expand, ip_minus_r, normal. ring. Qed.
Lemma fit_residual : residual fit = residual be + ip o (mv L Rc be) y.
Proof.
  rewrite excess_lift. transitivity (residual (fun i => be i + - lift y i)); [apply residual_ext; intros; unfold fit; ring|].
  rewrite residual_beta. f_equal. unfold ip. apply bsum_ext. intros i Hi. rewrite mv_opp. ring.
Qed.
Lemma fit_best b' : (forall r, (r < o)%nat -> mv L Rc b' r = 0) -> residual fit <= residual b'.
Proof.
  intro Hb. set (v := fun i => b' i - fit i).
  apply Rle_trans with (residual (fun i => fit i + v i)); [|right; apply residual_ext; intros; unfold v; ring].
  rewrite residual_expand.
  assert (X : ip L v (fun i => mv na (transpose G) (b_a d) i - mv L A fit i) = 0).
  { transitivity (ip L v (mv o (transpose Rc) y)).
    - apply ip_ext; auto. intros i Hi. unfold fit. rewrite mv_minus.
      assert (N : mv L A be i = mv na (transpose G) (b_a d) i) by (unfold be, beta; fold L B G; apply AB; assumption).
      rewrite N. unfold lift. rewrite AB by assumption. ring.
    - rewrite ip_comm, mv_transpose_ip. apply ip_zero_r. intros r Hr. unfold v. rewrite mv_minus, Hb, fit_constraint by assumption. ring. }
  rewrite X. pose proof (ip_self_nonneg na (mv L G v)). lra.
Qed.
End Fit.

(** ** Polynomials with distinct roots *)
Fixpoint cpow (z : C) (n : nat) : C := match n with O => C1 | S n => Cmul z (cpow z n) end.
Definition cprod (l : list C) : C := fold_right Cmul C1 l.
(** c_0 x^k + c_1 x^(k - 1) + .. + c_k, by Horner's rule *)
Fixpoint ev (c : nat -> C) (k : nat) (x : C) : C := match k with O => c 0%nat | S k => Cadd (Cmul x (ev c k x)) (c (S k)) end.

Lemma ev_ext c c' k x : (forall i, (i <= k)%nat -> c i = c' i) -> ev c k x = ev c' k x.
Proof. induction k; cbn [ev]; intro H; [apply H; lia|]. rewrite IHk by (intros; apply H; lia). rewrite H by lia. reflexivity. Qed.
Lemma ev_csum c k x : ev c k x = csum (k + 1) (fun i => Cmul (c i) (cpow x (k - i))).
Proof.
  induction k; cbn [ev].
  - rewrite Nat.add_0_l, csum_S, csum_0. cbn [Nat.sub cpow]. ring.
  - rewrite IHk. replace (S k + 1)%nat with (S (k + 1))%nat by lia. rewrite csum_S. replace (S k - (k + 1))%nat with 0%nat by lia. cbn [cpow].
    replace (k + 1)%nat with (S k) at 3 by lia. rewrite <- csum_scal. f_equal; [|ring].
    apply csum_ext. intros i Hi. replace (S k - i)%nat with (S (k - i)) by lia. cbn [cpow]. ring.
Qed.

Lemma divide c K x r : ev c (S K) x = Cadd (Cmul (Csub x r) (ev (fun k => ev c k r) K x)) (ev c (S K) r).
Proof.
  induction K.
  - cbn [ev]. ring.
  - change (ev c (S (S K)) x) with (Cadd (Cmul x (ev c (S K) x)) (c (S (S K)))). rewrite IHK.
    change (ev (fun k => ev c k r) (S K) x) with (Cadd (Cmul x (ev (fun k => ev c k r) K x)) (ev c (S K) r)).
    change (ev c (S (S K)) r) with (Cadd (Cmul r (ev c (S K) r)) (c (S (S K)))). ring.
Qed.
Lemma Csub_nz a b : a <> b -> Csub a b <> C0.
Proof. intros N E. apply N. replace a with (Cadd (Csub a b) b) by ring. rewrite E. ring. Qed.

Lemma factor : forall K c u, length u = K -> NoDup u -> (forall r, In r u -> ev c K r = C0) ->
  forall x, ev c K x = Cmul (c 0%nat) (cprod (map (Csub x) u)).
Proof.
  induction K; intros c u Hl Hd Hr x.
  - destruct u; [|discriminate]. cbn. ring.
  - destruct u as [|r u]; [discriminate|]. inversion Hd; subst. rewrite (divide c K x r), (Hr r (or_introl eq_refl)).
    rewrite (IHK (fun k => ev c k r) u).
    + cbn [ev map cprod fold_right]. fold (cprod (map (Csub x) u)). ring.
    + cbn in Hl. lia.
    + assumption.
    + intros s Hs. assert (N : Csub s r <> C0) by (apply Csub_nz; intros ->; contradiction).
      pose proof (divide c K s r) as E. rewrite (Hr s (or_intror Hs)), (Hr r (or_introl eq_refl)) in E.
      apply (C_integral (Csub s r)); [|exact N]. rewrite E. ring.
Qed.
Lemma cprod_nz l : (forall z, In z l -> z <> C0) -> cprod l <> C0.
Proof.
  induction l; intros H; cbn.
  - intro E. apply (f_equal fst) in E. cbn in E. lra.
  - intro E. apply (C_integral a) in E; [|apply H; left; reflexivity]. apply IHl in E; [exact E|]. intros; apply H; right; assumption.
Qed.
Lemma too_many_roots : forall K c u, length u = S K -> NoDup u -> (forall r, In r u -> ev c K r = C0) -> forall k, (k <= K)%nat -> c k = C0.
Proof.
  induction K; intros c u Hl Hd Hr k Hk.
  - destruct u as [|r u]; [discriminate|]. replace k with 0%nat by lia. apply (Hr r). left. reflexivity.
  - destruct u as [|r u]; [discriminate|]. inversion Hd; subst. cbn in Hl.
    assert (Z : c 0%nat = C0).
    { pose proof (factor (S K) c u ltac:(lia) H2 (fun s Hs => Hr s (or_intror Hs)) r) as E. rewrite (Hr r (or_introl eq_refl)) in E.
      apply (C_integral (cprod (map (Csub r) u))); [rewrite E; ring|]. apply cprod_nz. intros z Hz. apply in_map_iff in Hz. destruct Hz as [s [<- Hs]].
      apply Csub_nz. intros ->. contradiction. }
    assert (P : forall m x, ev c (S m) x = ev (fun i => c (S i)) m x).
    { induction m; intro x; [cbn; rewrite Z; ring|]. change (ev c (S (S m)) x) with (Cadd (Cmul x (ev c (S m) x)) (c (S (S m)))). rewrite IHm. reflexivity. }
    destruct k; [exact Z|]. apply (IHK (fun i => c (S i)) u); [lia|assumption| |lia]. intros s Hs. rewrite <- P. apply Hr. right. exact Hs.
Qed.

(** sums of powers of distinct numbers *)
Lemma power_sums : forall K (w u : nat -> C) N, (forall n, (n <= N)%nat -> csum K (fun k => Cmul (w k) (cpow (u k) n)) = C0) ->
  forall l n, (n + length l <= N)%nat -> csum K (fun k => Cmul (w k) (Cmul (cpow (u k) n) (cprod (map (Csub (u k)) l)))) = C0.
Proof.
  intros K w u N H l. induction l as [|r l IH]; intros n Hn.
  - cbn in *. rewrite <- (H n) by lia. apply csum_ext. intros. ring.
  - cbn [length] in Hn. pose proof (IH (S n) ltac:(lia)) as A. pose proof (IH n ltac:(lia)) as B.
    transitivity (Csub (csum K (fun k => Cmul (w k) (Cmul (cpow (u k) (S n)) (cprod (map (Csub (u k)) l)))))
                       (Cmul r (csum K (fun k => Cmul (w k) (Cmul (cpow (u k) n) (cprod (map (Csub (u k)) l))))))).
    + rewrite <- csum_scal, <- csum_sub. apply csum_ext. intros k Hk. cbn [cpow map cprod fold_right]. fold (cprod (map (Csub (u k)) l)). ring.
    + rewrite A, B. ring.
Qed.
Lemma vandermonde : forall K (w u : nat -> C), (forall i j, (i < K)%nat -> (j < K)%nat -> u i = u j -> i = j) ->
  (forall n, (n < K)%nat -> csum K (fun k => Cmul (w k) (cpow (u k) n)) = C0) -> forall k, (k < K)%nat -> w k = C0.
Proof.
  intros K w u Hd H k Hk.
  set (l := map u (filter (fun j => negb (Nat.eqb j k)) (seq 0 K))).
  assert (Ll : (length l + 1 <= K)%nat).
  { unfold l. rewrite map_length. replace K with (length (seq 0 K)) at 2 by apply seq_length.
    assert (P : forall s, In k s -> (length (filter (fun j => negb (Nat.eqb j k)) s) + 1 <= length s)%nat).
    { assert (Q : forall s : list nat, (length (filter (fun j => negb (Nat.eqb j k)) s) <= length s)%nat) by (induction s; cbn; [lia|destruct (negb _); cbn; lia]).
      induction s as [|a s IHs]; intro Hi; [destruct Hi|]. cbn. destruct (Nat.eqb_spec a k); cbn.
      - specialize (Q s). lia.
      - destruct Hi as [|Hi]; [contradiction|]. specialize (IHs Hi). lia. }
    apply P. apply in_seq. lia. }
  assert (V : forall i, (i < K)%nat -> i <> k -> cprod (map (Csub (u i)) l) = C0).
  { intros i Hi N. assert (I : In (u i) l).
    { unfold l. apply in_map. apply filter_In. split; [apply in_seq; lia|]. destruct (Nat.eqb_spec i k); [contradiction|reflexivity]. }
    revert I. clear. generalize l as q. induction q as [|a q IHq]; [intros []|]. cbn [map cprod fold_right In]. fold (cprod (map (Csub (u i)) q)). intros [->|I]; [|rewrite (IHq I); ring].
    replace (Csub (u i) (u i)) with C0 by ring. ring. }
  pose proof (power_sums K w u (K - 1) (fun n Hn => H n ltac:(lia)) l 0%nat ltac:(lia)) as E.
  rewrite (csum_delta K k) in E; [|exact Hk|intros i Hi N; rewrite (V i Hi N); ring].
  cbn [cpow] in E.
  apply (C_integral (cprod (map (Csub (u k)) l))).
  - rewrite <- E. ring.
  - apply cprod_nz. intros z Hz. apply in_map_iff in Hz. destruct Hz as [s [<- Hs]]. unfold l in Hs. apply in_map_iff in Hs. destruct Hs as [j [<- Hj]].
    apply filter_In in Hj. destruct Hj as [Hj N]. apply in_seq in Hj. apply Csub_nz. intro X. apply Hd in X; [|lia|lia]. subst j. rewrite Nat.eqb_refl in N. discriminate.
Qed.
