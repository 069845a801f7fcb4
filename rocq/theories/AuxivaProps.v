(** Independent vector analysis (pyroomacoustics.bss.auxiva): C110, C111. *)
From Coq Require Import List ZArith Lia Reals Lra Bool.
From Verif Require Import Base Vec Sum Cpx BackModel BackProps AuxivaModel AuxivaSpec AuxivaProofs DetProofs BaseProofs.
Import ListNotations.
Local Open Scope R_scope.

(** * C110 *)
(** Without back-projection the output is the returned filters applied to the input; with it,
    every separated signal is that output times the gain that brings it closest to the first
    microphone.  The filters do not depend on the back-projection. *)
Theorem C110_output : forall solve F M S T model eps X n W0 Y W,
  auxiva solve F M S T model eps X n W0 false = Some (Y, W) ->
  (forall t f s, Y t f s = csum M (fun c => (W f s c * X f c t)%C)) /\
  exists Y', auxiva solve F M S T model eps X n W0 true = Some (Y', W) /\ forall f s, exists g : C,
    (forall t, Y' t f s = (g * Y t f s)%C) /\
    forall h, bsum T (fun t => Cabs2 (Y' t f s - X f 0%nat t)%C) <= bsum T (fun t => Cabs2 (h * Y t f s - X f 0%nat t)%C).
Proof.
  intros solve F M S T model eps X n W0 Y W H. unfold auxiva in *. destruct (M <? S)%nat; [discriminate|].
  destruct (init _ _ _ _ _ _ _) as [Wi|]; [|discriminate]. cbn [bind] in *. destruct (epochs _ _ _ _ _ _ _ _ _ _) as [We|]; [|discriminate]. cbn [bind] in *.
  injection H as <- <-. split; [reflexivity|]. eexists. split; [reflexivity|]. intros f s.
  set (Y := fun t f s => demix M X We f s t). set (z := projection_back T Y (fun t f => X f 0%nat t) None None f s).
  exists (Conj z). split; [intros t; unfold z; ring|]. intros h.
  pose proof (C109_minimal T Y (fun t f => X f 0%nat t) f s (Conj h)) as Q. fold z in Q. unfold distance2 in Q.
  rewrite Conj_conj in Q.
  assert (A : forall (g : nat -> C) (k : C), bsum T (fun t => Cabs2 (X f 0%nat t - k * g t)%C) = bsum T (fun t => Cabs2 (k * g t - X f 0%nat t)%C)) by (intros; apply bsum_ext; intros; unfold Cabs2; cbn; ring).
  match goal with |- ?a <= ?b => match type of Q with ?c <= ?d => assert (E1 : a = c); [|assert (E2 : b = d); [|rewrite E1, E2; exact Q]] end end.
  - apply bsum_ext. intros t _. fold (Y t f s). unfold Cabs2. fold z. cbn. ring.
  - apply bsum_ext. intros t _. unfold Cabs2, Y. cbn. ring.
Qed.
(** More sources than microphones are rejected. *)
Theorem C110_rejects : forall solve F M S T model eps X n W0 b, (M < S)%nat -> auxiva solve F M S T model eps X n W0 b = None.
Proof. intros. unfold auxiva. destruct (Nat.ltb_spec M S); [reflexivity|lia]. Qed.

Lemma auxiva_filters : forall solve F M S T model eps X n W0 b Y W, auxiva solve F M S T model eps X n W0 b = Some (Y, W) ->
  (S <= M)%nat /\ exists Wi, init solve F M S T X W0 = Some Wi /\ epochs solve F M S T model eps X n Wi = Some W.
Proof.
  intros solve F M S T model eps X n W0 b Y W H. unfold auxiva in H. destruct (Nat.ltb_spec M S); [discriminate|]. split; [auto|].
  destruct (init _ _ _ _ _ _ _) as [Wi|]; [|discriminate]. cbn [bind] in H. destruct (epochs _ _ _ _ _ _ _ _ _ _) as [We|] eqn:E; [|discriminate]. cbn [bind] in H.
  injection H as _ <-. eauto.
Qed.
Lemma epochs_add : forall solve F M S T model eps X n m W, epochs solve F M S T model eps X (n + m) W = let* W' := epochs solve F M S T model eps X n W in epochs solve F M S T model eps X m W'.
Proof. intros solve F M S T model eps X n. induction n as [|n IH]; intros m W; cbn; [reflexivity|]. destruct (epoch _ _ _ _ _ _ _ _ W); cbn; auto. Qed.
Lemma form_weighted : forall M T X rho f u w, form M (weighted T X rho f) u w =
  Cscal (/ INR T) (csum T (fun t => Cscal (rho t) (csum M (fun c => u c * X f c t) * Conj (csum M (fun c => w c * X f c t)))%C)).
Proof. intros. apply (form_eq M T rho (X f)). Qed.

(** One more iteration.  With [Y] the output after n iterations, [Y'] after n+1 and [r] the
    weights of the frames computed from [Y]: every separated signal has weighted power 1 at
    every frequency, and it is uncorrelated, with its weights, with the new signals of the
    sources before it and the old ones of those after it. *)
Theorem C110_iteration : forall solve F M S T model eps X n W0 Y W Y' W', is_solve solve -> 0 < eps ->
  auxiva solve F M S T model eps X n W0 false = Some (Y, W) -> auxiva solve F M S T model eps X (n + 1) W0 false = Some (Y', W') ->
  forall f s, (f < F)%nat -> (s < S)%nat ->
  let r := weight F model eps (fun f s t => Y t f s) s in
  / INR T * bsum T (fun t => r t * Cabs2 (Y' t f s)) = 1 /\
  (forall k, (k < s)%nat -> csum T (fun t => Cscal (r t) (Y' t f k * Conj (Y' t f s))%C) = C0) /\
  (forall k, (s < k < S)%nat -> csum T (fun t => Cscal (r t) (Y t f k * Conj (Y' t f s))%C) = C0).
Proof.
  intros solve F M S T model eps X n W0 Y W Y' W' Hso He H H' f s Hf Hs r.
  destruct (C110_output _ _ _ _ _ _ _ _ _ _ _ _ H) as [EY _]. destruct (C110_output _ _ _ _ _ _ _ _ _ _ _ _ H') as [EY' _].
  destruct (auxiva_filters _ _ _ _ _ _ _ _ _ _ _ _ _ H) as (HS & Wi & Ei & E). destruct (auxiva_filters _ _ _ _ _ _ _ _ _ _ _ _ _ H') as (_ & Wi' & Ei' & E').
  rewrite Ei in Ei'. injection Ei' as <-. rewrite epochs_add, E in E'. cbn [bind epochs] in E'.
  destruct (epoch _ _ _ _ _ _ _ _ W) as [W2|] eqn:E2; [|discriminate]. cbn [bind] in E'. injection E' as ->. unfold epoch in E2.
  destruct (epoch_rows solve F M S T model eps X Hso He HS (demix M X W) S 0 W W' ltac:(lia) E2 f Hf) as [_ Q]. specialize (Q s ltac:(lia)). cbv zeta in Q.
  assert (Er : forall t, weight F model eps (demix M X W) s t = r t).
  { intros t. unfold r, weight. rewrite (bsum_ext F (fun f => Cabs2 (demix M X W f s t)) (fun f => Cabs2 (Y t f s))) by (intros; now rewrite EY). reflexivity. }
  destruct Q as (No & Or & Or'). rewrite form_weighted in No.
  assert (PT : / INR T <> 0). { intros Z. rewrite Z in No. apply (f_equal fst) in No. cbn in No. lra. }
  split; [|split].
  - apply (f_equal fst) in No. cbn [Cscal fst C1 RtoC] in No. rewrite fst_csum in No. rewrite <- No. f_equal. apply bsum_ext. intros t _. rewrite Er, EY'.
    cbn [Cscal fst]. f_equal. unfold Cabs2. cbn. ring.
  - intros k Hk. specialize (Or k Hk). rewrite form_weighted in Or.
    assert (Z : csum T (fun t => Cscal (weight F model eps (demix M X W) s t) (csum M (fun c => W' f k c * X f c t) * Conj (csum M (fun c => W' f s c * X f c t)))%C) = C0).
    { apply C_eq; [apply (f_equal fst) in Or|apply (f_equal snd) in Or]; cbn in Or; apply Rmult_integral in Or; destruct Or as [Or|Or]; try contradiction; exact Or. }
    rewrite <- Z. apply csum_ext. intros t _. now rewrite Er, !EY'.
  - intros k Hk. specialize (Or' k Hk). rewrite form_weighted in Or'.
    assert (Z : csum T (fun t => Cscal (weight F model eps (demix M X W) s t) (csum M (fun c => W f k c * X f c t) * Conj (csum M (fun c => W' f s c * X f c t)))%C) = C0).
    { apply C_eq; [apply (f_equal fst) in Or'|apply (f_equal snd) in Or']; cbn in Or'; apply Rmult_integral in Or'; destruct Or' as [Or'|Or']; try contradiction; exact Or'. }
    rewrite <- Z. apply csum_ext. intros t _. now rewrite Er, EY, EY'.
Qed.
(** Fewer sources than microphones: the matrices are completed with rows [conj(j), -1] whose
    outputs are uncorrelated with every separated source, after any number of iterations. *)
Theorem C110_background : forall solve F M S T model eps X n W0 b Y W, is_solve solve -> (S < M)%nat ->
  auxiva solve F M S T model eps X n W0 b = Some (Y, W) ->
  forall f i, (f < F)%nat -> (S <= i < M)%nat ->
  (forall d, (S <= d < M)%nat -> W f i d = if Nat.eqb i d then Copp C1 else C0) /\
  forall k, (k < S)%nat -> csum T (fun t => (csum M (fun c => W f k c * X f c t) * Conj (csum M (fun c => W f i c * X f c t)))%C) = C0.
Proof.
  intros solve F M S T model eps X n W0 b Y W Hso Hlt H f i Hf Hi. destruct (auxiva_filters _ _ _ _ _ _ _ _ _ _ _ _ _ H) as (HS & Wi & Ei & E).
  destruct (epochs_back solve F M S T model eps X Hso HS n Wi W Hlt (init_back solve F M S T X Hso HS W0 Wi Hlt Ei) E) as [Co Un].
  assert (Ii : i = (S + (i - S))%nat) by lia. rewrite Ii. split.
  - intros d Hd. replace d with (S + (d - S))%nat at 1 by lia. rewrite Co by (auto; lia). destruct (Nat.eqb_spec (i - S) (d - S)); destruct (Nat.eqb_spec (S + (i - S)) d); auto; lia.
  - intros k Hk. specialize (Un f k (i - S)%nat Hf Hk ltac:(lia)).
    assert (Z : form M (weighted T X (fun _ => 1) f) (W f k) (W f (S + (i - S))%nat) = C0).
    { rewrite <- Un. unfold form, weighted, covariance. apply csum_ext. intros d _. f_equal. apply csum_ext. intros c _. do 2 f_equal. apply csum_ext. intros t _. cring. }
    rewrite form_weighted in Z. destruct T as [|T']; [apply csum_0|].
    assert (P : / INR (Datatypes.S T') <> 0) by (apply Rinv_neq_0_compat, not_0_INR; lia).
    assert (Z' : csum (Datatypes.S T') (fun t => Cscal 1 (csum M (fun c => W f k c * X f c t) * Conj (csum M (fun c => W f (S + (i - S))%nat c * X f c t)))%C) = C0).
    { apply C_eq; [apply (f_equal fst) in Z|apply (f_equal snd) in Z]; unfold Cscal in Z; cbn [fst snd C0] in Z; apply Rmult_integral in Z; destruct Z as [Z|Z]; try contradiction; exact Z. }
    rewrite <- Z'. apply csum_ext. intros t _. cring.
Qed.

(** * C111 *)
(** [det] is the determinant: linear in every row, zero when two rows agree, one for the
    identity. *)
Theorem C111_determinant : forall n, alternating n (det n) /\ det n unit_vec = C1.
Proof. intros. split; [apply det_alternating|apply det_one]. Qed.

(** As many sources as microphones, regular initial matrices: further iterations never
    increase the objective, and the matrices stay regular. *)
Theorem C111_decreasing : forall solve F M T model eps X n k W0 b b' Y W Y' W', is_solve solve -> 0 < eps -> (0 < F)%nat ->
  (forall f, (f < F)%nat -> match W0 with Some w => det M (w f) <> C0 | None => True end) ->
  auxiva solve F M M T model eps X n W0 b = Some (Y, W) -> auxiva solve F M M T model eps X (n + k) W0 b' = Some (Y', W') ->
  objective model F M T eps X (det M) W' <= objective model F M T eps X (det M) W /\
  forall f, (f < F)%nat -> det M (W f) <> C0 /\ det M (W' f) <> C0.
Proof.
  intros solve F M T model eps X n k W0 b b' Y W Y' W' Hso He HF HW H H'.
  destruct (auxiva_filters _ _ _ _ _ _ _ _ _ _ _ _ _ H) as (_ & Wi & Ei & E). destruct (auxiva_filters _ _ _ _ _ _ _ _ _ _ _ _ _ H') as (_ & Wi' & Ei' & E').
  rewrite Ei in Ei'. injection Ei' as <-. rewrite epochs_add, E in E'. cbn [bind] in E'.
  assert (Ni : forall f, (f < F)%nat -> det M (Wi f) <> C0).
  { intros f Hf. unfold init in Ei. rewrite Nat.ltb_irrefl in Ei. injection Ei as <-. specialize (HW f Hf). destruct W0 as [w|].
    - rewrite (det_ext M _ (w f)); auto. intros i j Hi _. destruct (Nat.ltb_spec i M); [auto|lia].
    - rewrite (det_ext M _ unit_vec). { rewrite det_one. intros Z. apply (f_equal fst) in Z. cbn in Z. lra. }
      intros i j Hi _. destruct (Nat.ltb_spec i M); [|lia]. unfold unit_vec. now rewrite Nat.eqb_sym. }
  destruct (epochs_decrease F M T model eps X (det M) He HF (det_alternating M) solve Hso n Wi W Ni E) as [Nw _].
  destruct (epochs_decrease F M T model eps X (det M) He HF (det_alternating M) solve Hso k W W' Nw E') as [Nw' L]. split; auto.
Qed.
(** Each update gives source [s] the best row possible, given the weights and the other rows. *)
Theorem C111_best_row : forall solve M T X rho f W s row u, is_solve solve -> (forall t, 0 <= rho t) -> (s < M)%nat -> det M W <> C0 ->
  new_row solve M W (weighted T X rho f) s = Some row -> det M (set_row W s u) <> C0 ->
  let cost w := / INR T * bsum T (fun t => rho t * Cabs2 (csum M (fun c => (w c * X f c t)%C))) - ln (Cabs2 (det M (set_row W s w))) in
  det M (set_row W s row) <> C0 /\ cost row <= cost u.
Proof.
  intros solve M T X rho f W s row u Hso Hr Hs HW H Hu cost. destruct (new_row_facts _ _ _ _ _ _ _ _ _ Hso Hr Hs H) as (_ & _ & Q).
  destruct (Q (det M) (det_alternating M) HW) as [N B]. split; [auto|]. exact (B u Hu).
Qed.

(** * A case: two microphones, two frames, one frequency, Gauss model *)
Definition solve2 (n : nat) (A : mat) (b : nat -> C) : option (nat -> C) :=
  if Nat.eqb n 2 then
    let d := (A 0 0 * A 1 1 - A 0 1 * A 1 0)%C%nat in
    if C_eq_dec d C0 then None
    else Some (fun i => if Nat.eqb i 0 then Cdiv (A 1 1 * b 0 - A 0 1 * b 1)%C%nat d else Cdiv (A 0 0 * b 1 - A 1 0 * b 0)%C%nat d)
  else if Nat.eqb n 1 then if C_eq_dec (A 0%nat 0%nat) C0 then None else Some (fun _ => Cdiv (b 0%nat) (A 0%nat 0%nat))
  else None.
Lemma Cdiv_mul : forall a b, b <> C0 -> (b * Cdiv a b)%C = a.
Proof.
  intros a b H. assert (P : Cabs2 b <> 0) by (intros Z; now apply H, Cabs2_zero). unfold Cdiv. apply C_eq; unfold Cabs2 in *; cbn; field; auto.
Qed.
Lemma solve2_ok : is_solve solve2.
Proof.
  intros n A b x H. unfold solve2 in H. destruct (Nat.eqb_spec n 2) as [->|].
  2:{ destruct (Nat.eqb_spec n 1) as [->|]; [|discriminate]. destruct (C_eq_dec (A 0%nat 0%nat) C0) as [|N]; [discriminate|]. injection H as <-. split.
      - exists (fun _ _ => Cdiv C1 (A 0%nat 0%nat)). intros i j Hi Hj. assert (i = 0%nat) as -> by lia. assert (j = 0%nat) as -> by lia. unfold mulmat, unit_vec. cbn [Nat.eqb].
        rewrite !csum_S, !csum_0. split; rewrite <- (Cdiv_mul C1 (A 0%nat 0%nat) N) at 2; ring.
      - intros i Hi. assert (i = 0%nat) as -> by lia. rewrite csum_S, csum_0. rewrite Cdiv_mul by auto. ring. }
  set (d := (A 0 0 * A 1 1 - A 0 1 * A 1 0)%C%nat) in *.
  destruct (C_eq_dec d C0) as [|N]; [discriminate|]. injection H as <-.
  assert (I : (d * Cdiv C1 d)%C = C1) by now apply Cdiv_mul. set (e := Cdiv C1 d) in *.
  assert (Dv : forall a, Cdiv a d = (a * e)%C). { intros a. unfold e, Cdiv. apply C_eq; cbn; ring. }
  split.
  - exists (fun i j => (nth j (nth i [[A 1 1; - A 0 1]; [- A 1 0; A 0 0]]%C%nat []) C0 * e)%C). intros i j Hi Hj.
    assert (E1 : forall z, z = d -> (z * e)%C = C1) by (intros z ->; auto). unfold d in E1.
    destruct i as [|[|i]]; [| |lia]; destruct j as [|[|j]]; try lia; unfold mulmat; rewrite !csum_S, !csum_0; cbn [nth]; unfold unit_vec; cbn [Nat.eqb]; split; try ring;
      (rewrite <- (E1 _ eq_refl); ring).
  - intros i Hi. assert (E2 : forall k, (d * e * k)%C = k) by (intros k; rewrite I; ring). unfold d in E2. destruct i as [|[|i]]; [| |lia]; rewrite !csum_S, !csum_0; cbn [Nat.eqb]; rewrite !Dv.
    + rewrite <- (E2 (b 0%nat)) at 3. ring.
    + rewrite <- (E2 (b 1%nat)) at 3. ring.
Qed.
Definition X2 (f c t : nat) : C := if Nat.eqb c t then C1 else C0.
Lemma solve2_diag : forall A s a0 a1, A 0%nat 0%nat = RtoC a0 -> A 1%nat 1%nat = RtoC a1 -> A 0%nat 1%nat = C0 -> A 1%nat 0%nat = C0 -> a0 <> 0 -> a1 <> 0 -> (s < 2)%nat ->
  exists x, solve2 2 A (unit_vec s) = Some x /\ x 0%nat = RtoC (if Nat.eqb s 0 then / a0 else 0) /\ x 1%nat = RtoC (if Nat.eqb s 1 then / a1 else 0).
Proof.
  intros A s a0 a1 E0 E1 E2 E3 N0 N1 Hs. unfold solve2. cbn [Nat.eqb]. rewrite E0, E1, E2, E3. set (d := (RtoC a0 * RtoC a1 - C0 * C0)%C).
  assert (Ed : d = RtoC (a0 * a1)) by (unfold d; cring). assert (Nd : a0 * a1 <> 0) by now apply Rmult_integral_contrapositive.
  destruct (C_eq_dec d C0) as [Z|_]. { exfalso. rewrite Ed in Z. apply (f_equal fst) in Z. cbn in Z. contradiction. }
  eexists. split; [reflexivity|]. cbn [Nat.eqb]. rewrite Ed, !Cdiv_real by auto. destruct s as [|[|s]]; [| |lia]; unfold unit_vec; cbn [Nat.eqb]; split; apply C_eq; cbn; field; auto.
Qed.
Lemma weighted2 : forall rho, (forall t, (t < 2)%nat -> rho t = 1) -> forall c d, (c < 2)%nat -> (d < 2)%nat -> weighted 2 X2 rho 0 c d = RtoC (if Nat.eqb c d then / 2 else 0).
Proof.
  intros rho H c d Hc Hd. unfold weighted. rewrite !csum_S, csum_0, !H by lia. destruct c as [|[|c]]; [| |lia]; destruct d as [|[|d]]; try lia; unfold X2; cbn [Nat.eqb]; apply C_eq; cbn; field.
Qed.
Lemma new_row2 : forall (W : mat) s a rho, (s < 2)%nat -> (forall t, (t < 2)%nat -> rho t = 1) -> a <> 0 ->
  (forall i j, (i < 2)%nat -> (j < 2)%nat -> W i j = if Nat.eqb i j then RtoC (if Nat.eqb i s then 1 else a) else C0) ->
  exists row, new_row solve2 2 W (weighted 2 X2 rho 0) s = Some row /\ forall c, (c < 2)%nat -> row c = RtoC (if Nat.eqb c s then sqrt 2 else 0).
Proof.
  intros W s a rho Hs Hr Ha HW. unfold new_row. set (V := weighted 2 X2 rho 0). pose proof (weighted2 rho Hr) as HV. fold V in HV.
  assert (S2 : 0 < sqrt 2) by (apply sqrt_lt_R0; lra). assert (Q2 : sqrt 2 * sqrt 2 = 2) by (apply sqrt_sqrt; lra).
  destruct (solve2_diag (fun i d => csum 2 (fun c => (W i c * V c d)%C)) s ((if Nat.eqb 0 s then 1 else a) / 2) ((if Nat.eqb 1 s then 1 else a) / 2)) as (x & Ex & X0 & X1); auto.
  1-4: cbv beta; rewrite !csum_S, csum_0, !HW, !HV by lia; cbn [Nat.eqb]; apply C_eq; cbn; field.
  1-2: destruct (Nat.eqb _ s); lra.
  rewrite Ex. cbn [bind]. eexists. split; [reflexivity|]. cbv zeta.
  set (den := csum 2 _). assert (Eden : den = RtoC 2).
  { unfold den. rewrite ?csum_S, ?csum_0, ?csum_S, ?csum_0, !HV, X0, X1 by lia. destruct s as [|[|s]]; [| |lia]; cbn [Nat.eqb]; apply C_eq; cbn; field. }
  rewrite Eden, csqrt_real by lra. intros c Hc. rewrite Cdiv_real by lra.
  destruct c as [|[|c]]; [| |lia]; rewrite ?X0, ?X1; destruct s as [|[|s]]; try lia; cbn [Nat.eqb]; apply C_eq; cbn; try (field; lra).
  - apply (Rmult_eq_reg_l (sqrt 2)); [|lra]. rewrite Q2. field. lra.
  - apply (Rmult_eq_reg_l (sqrt 2)); [|lra]. rewrite Q2. field. lra.
Qed.
Lemma set_row_s : forall W s row, set_row W s row s = row.
Proof. intros. unfold set_row. now rewrite Nat.eqb_refl. Qed.
Example C111_case : exists Y W, auxiva solve2 1 2 2 2 Gauss 1 X2 1 None false = Some (Y, W) /\
  det 2 (W 0%nat) <> C0 /\ forall i j, (i < 2)%nat -> (j < 2)%nat -> W 0%nat i j = RtoC (if Nat.eqb i j then sqrt 2 else 0).
Proof.
  assert (Wt : forall W : nat -> mat, (forall i j, (i < 2)%nat -> (j < 2)%nat -> W 0%nat i j = unit_vec i j) -> forall s t, (s < 2)%nat -> (t < 2)%nat -> weight 1 Gauss 1 (demix 2 X2 W) s t = 1).
  { intros W HW s t Hs Ht. unfold weight. rewrite bsum_S || cbn [bsum]. assert (E : demix 2 X2 W 0 s t = unit_vec s t).
    { unfold demix. rewrite !csum_S, csum_0, !HW by lia. destruct s as [|[|s]]; [| |lia]; destruct t as [|[|t]]; try lia; unfold X2, unit_vec; cbn [Nat.eqb]; ring. }
    rewrite E. unfold unit_vec, Cabs2. destruct (t =? s)%nat; cbn; match goal with |- context [Rlt_dec ?a 1] => destruct (Rlt_dec a 1) end; lra. }
  set (Wi := fun (f s c : nat) => if (s <? 2)%nat then if (s =? c)%nat then C1 else C0 else C0).
  assert (HWi : forall i j, (i < 2)%nat -> (j < 2)%nat -> Wi 0%nat i j = unit_vec i j).
  { intros i j Hi Hj. unfold Wi, unit_vec. destruct (Nat.ltb_spec i 2); [|lia]. now rewrite Nat.eqb_sym. }
  set (Yi := demix 2 X2 Wi).
  assert (S2 : 0 < sqrt 2) by (apply sqrt_lt_R0; lra).
  destruct (new_row2 (Wi 0%nat) 0 1 (weight 1 Gauss 1 Yi 0)) as (r0 & E0 & R0); [lia|intros; apply Wt; auto|lra| |].
  { intros i j Hi Hj. rewrite HWi by auto. unfold unit_vec. rewrite Nat.eqb_sym. destruct (i =? j)%nat; [|auto]. destruct (i =? 0)%nat; reflexivity. }
  destruct (new_row2 (set_row (Wi 0%nat) 0 r0) 1 (sqrt 2) (weight 1 Gauss 1 Yi 1)) as (r1 & E1 & R1); [lia|intros; apply Wt; auto|lra| |].
  { intros i j Hi Hj. unfold set_row. destruct i as [|[|i]]; [| |lia]; cbn [Nat.eqb]; [rewrite R0 by auto|rewrite HWi by auto]; destruct j as [|[|j]]; try lia; reflexivity. }
  unfold auxiva. cbn [Nat.ltb Nat.leb]. unfold init. cbn [Nat.ltb Nat.leb]. cbn [bind]. fold Wi.
  assert (Ee : epochs solve2 1 2 2 2 Gauss 1 X2 1 Wi = Some (fun f => nth f [set_row (set_row (Wi 0%nat) 0 r0) 1 r1] (fun _ _ => C0))).
  { cbn [epochs]. unfold epoch. fold Yi. cbn [seq foldM]. unfold update_source at 1, for_all_f. cbn [seq mapM]. rewrite E0. cbn [bind Nat.ltb Nat.leb].
    unfold update_source, for_all_f. cbn [seq mapM nth]. rewrite E1. reflexivity. }
  match goal with |- context [epochs _ _ _ _ _ _ _ _ _ ?w] => change w with Wi end. rewrite Ee. cbn [bind].
  eexists. eexists. split; [reflexivity|]. cbn [nth].
  assert (HW : forall i j, (i < 2)%nat -> (j < 2)%nat -> set_row (set_row (Wi 0%nat) 0 r0) 1 r1 i j = RtoC (if Nat.eqb i j then sqrt 2 else 0)).
  { intros i j Hi Hj. unfold set_row. destruct i as [|[|i]]; [| |lia]; cbn [Nat.eqb]; [rewrite R0 by auto|rewrite R1 by auto]; destruct j as [|[|j]]; try lia; reflexivity. }
  split; [|exact HW].
  unfold det. rewrite !csum_S, !csum_0. unfold minor. cbn [Nat.even Nat.ltb Nat.leb]. rewrite !HW by lia. cbn [Nat.eqb]. intros Z. apply (f_equal fst) in Z. cbn in Z.
  assert (Q2 : sqrt 2 * sqrt 2 = 2) by (apply sqrt_sqrt; lra). nra.
Qed.
Definition X3 (f c t : nat) : C := if Nat.eqb c 0 then C1 else if Nat.eqb t 0 then C1 else C0.
Lemma solve2_1 : forall A b, A 0%nat 0%nat = RtoC 1 -> b 0%nat = RtoC (/ 2) -> solve2 1 A b = Some (fun _ => RtoC (/ 2)).
Proof.
  intros A b H1 H2. unfold solve2. cbn [Nat.eqb]. rewrite H1, H2. destruct (C_eq_dec (RtoC 1) C0) as [Z|_]; [apply (f_equal fst) in Z; cbn in Z; lra|].
  rewrite Cdiv_real by lra. assert (E : Cscal (/ 1) (RtoC (/ 2)) = RtoC (/ 2)) by (apply C_eq; cbn; field). now rewrite E.
Qed.
Example C110_case : exists Y W, auxiva solve2 1 2 1 2 Gauss 1 X3 0 None false = Some (Y, W) /\ W 0%nat 1%nat 0%nat = RtoC (/ 2) /\ W 0%nat 1%nat 1%nat = RtoC (- 1).
Proof.
  unfold auxiva. cbn [Nat.ltb Nat.leb]. unfold init. cbn [Nat.ltb Nat.leb]. unfold update_J, for_all_f. cbn [seq mapM]. unfold update_J_f. cbn [seq mapM Nat.sub].
  set (Wi := fun (f s c : nat) => if (s <=? 0)%nat then if (s =? c)%nat then C1 else C0 else C0). set (A := fun k d : nat => csum 2 (fun c => (Wi 0%nat k c * covariance 2 X3 0 c d)%C)).
  assert (W00 : Wi 0%nat 0%nat 0%nat = C1) by reflexivity. assert (W01 : Wi 0%nat 0%nat 1%nat = C0) by reflexivity.
  assert (A0 : A 0%nat 0%nat = RtoC 1). { unfold A. rewrite !csum_S, csum_0, W00, W01. unfold covariance. rewrite !csum_S, !csum_0. unfold X3. cbn [Nat.eqb]. apply C_eq; cbn; field. }
  assert (A1 : A 0%nat 1%nat = RtoC (/ 2)). { unfold A. rewrite !csum_S, csum_0, W00, W01. unfold covariance. rewrite !csum_S, !csum_0. unfold X3. cbn [Nat.eqb]. apply C_eq; cbn; field. }
  match goal with |- context [solve2 1 ?a ?b] => assert (E : solve2 1 a b = Some (fun _ => RtoC (/ 2))) end.
  { apply solve2_1; [exact A0|exact A1]. }
  rewrite E. cbn [bind epochs]. eexists. eexists. split; [reflexivity|]. cbn. split; apply C_eq; cbn; field.
Qed.
Print Assumptions C110_output.
Print Assumptions C110_rejects.
Print Assumptions C110_iteration.
Print Assumptions C110_background.
Print Assumptions C111_determinant.
Print Assumptions C111_decreasing.
Print Assumptions C111_best_row.
