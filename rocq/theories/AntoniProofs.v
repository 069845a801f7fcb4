From Coq Require Import List ZArith Lia Reals Lra Bool R_Ifp.
From Verif Require Import Base BaseProofs Vec Sum Cpx DftModel DftProofs StftProofs ParamModel ParamProofs BandsModel BandsProps.
Import ListNotations.
Local Open Scope R_scope.

(** ** Rounding *)
Lemma rint_err : forall x, x - / 2 <= IZR (rint x) <= x + / 2.
Proof.
  intros x. unfold rint. destruct (base_Int_part x) as [H1 H2]. set (f := Int_part x) in *. destruct (Rlt_dec _ _); [lra|]. destruct (Rlt_dec _ _); [rewrite plus_IZR; lra|]. destruct (Z.even f); [lra|rewrite plus_IZR; lra].
Qed.
Lemma rint_unique : forall x z, IZR z - / 2 < x < IZR z + / 2 -> rint x = z.
Proof. intros x z H. pose proof (rint_err x) as E. assert (A : IZR (rint x) < IZR z + 1) by lra. assert (B : IZR z - 1 < IZR (rint x)) by lra. rewrite <- plus_IZR in A. rewrite <- minus_IZR in B. apply lt_IZR in A. apply lt_IZR in B. lia. Qed.
Lemma rint_half : forall z, rint (IZR z + / 2) = if Z.even z then z else (z + 1)%Z.
Proof.
  intros z. unfold rint. assert (E : Int_part (IZR z + / 2) = z). { destruct (base_Int_part (IZR z + / 2)) as [H1 H2]. assert (A : IZR (Int_part (IZR z + / 2)) < IZR z + 1) by lra. assert (B : IZR z - 1 < IZR (Int_part (IZR z + / 2))) by lra. rewrite <- plus_IZR in A. rewrite <- minus_IZR in B. apply lt_IZR in A. apply lt_IZR in B. lia. }
  rewrite E. destruct (Rlt_dec _ _); [lra|]. destruct (Rlt_dec _ _); [lra|]. reflexivity.
Qed.
Lemma rint_IZR : forall z, rint (IZR z) = z.
Proof. intros. apply rint_unique. lra. Qed.

(** ** The loop in closed form *)
Section Fold.
Variables (n_fft : nat) (centers : vec) (bands : list (R * R)) (fs overlap : R) (slope : nat).
Let k1 := an_k1 n_fft bands fs.
Let P := an_P n_fft centers bands fs overlap.
Definition lo (b : nat) : Z := (k1 b - P b)%Z.
Definition hi (b : nat) : Z := (k1 b + P b)%Z.
Definition phi (b : nat) (k : Z) : R := antoni_phi slope (k - k1 b)%Z (P b).
Definition inside (b : nat) (k : Z) : bool := ((0 <? P b) && (lo b <=? k) && (k <? hi b + 1))%Z.
Definition row (m b k : nat) : R :=
  let k' := Z.of_nat k in
  if (b <? m)%nat && (hi (b + 1) <=? k')%Z then 0
  else if (b <? m)%nat && inside (b + 1) k' then cos (PI / 2 * phi (b + 1) k')
  else if (1 <=? b)%nat && (b <=? m)%nat && (k' <? lo b)%Z then 0
  else if (1 <=? b)%nat && (b <=? m)%nat && inside b k' then sin (PI / 2 * phi b k')
  else 1.
Definition step := antoni_step n_fft centers bands fs overlap slope.
(** What makes a turn of the loop succeed. *)
Definition fits (b : nat) : Prop := (0 <= P b)%Z /\ (0 <= k1 b)%Z /\ ((0 < P b)%Z -> (0 <= lo b)%Z /\ (hi b <= Z.of_nat (n_fft / 2))%Z).
Lemma step_some : forall G b G', step G b = Some G' -> fits b /\ forall c k, G' c k =
    let k' := Z.of_nat k in
    if Nat.eqb c (b - 1) then (if (hi b <=? k')%Z then 0 else if inside b k' then cos (PI / 2 * phi b k') else G c k)
    else if Nat.eqb c b then (if (k' <? lo b)%Z then 0 else if inside b k' then sin (PI / 2 * phi b k') else G c k)
    else G c k.
Proof.
  intros G b G' H. unfold step, antoni_step in H. fold k1 P in H. destruct ((P b <? 0)%Z || (k1 b <? 0)%Z) eqn:E1; [discriminate|]. apply orb_false_elim in E1. destruct E1 as [E1 E1'].
  match type of H with (if ?c then _ else _) = _ => destruct c eqn:E2; [discriminate|] end. apply Some_inj in H. subst G'. split.
  - split; [lia|]. split; [lia|]. intros Hp. unfold lo, hi.
 apply andb_false_elim in E2. destruct E2 as [E2|E2]; [lia|]. apply orb_false_elim in E2. destruct E2 as [E2 E3]. apply Z.ltb_ge in E2, E3. lia.
  - intros c k. reflexivity.
Qed.
Lemma step_defined : forall G b, fits b -> exists G', step G b = Some G'.
Proof.
  intros G b (F1 & F2 & F3). unfold step, antoni_step. fold k1 P. destruct ((P b <? 0)%Z || (k1 b <? 0)%Z) eqn:E1; [apply orb_prop in E1; lia|].
  match goal with |- exists _, (if ?c then _ else _) = _ => destruct c eqn:E2; [|eauto] end. exfalso. apply andb_prop in E2. destruct E2 as [E2 E3]. specialize (F3 ltac:(lia)). unfold lo, hi in F3. apply Z.ltb_lt in E2. apply orb_prop in E3. destruct E3 as [E3|E3]; apply Z.ltb_lt in E3; lia.
Qed.
Lemma loop_defined : forall m G, (forall b, (1 <= b <= m)%nat -> fits b) -> exists G', foldM step (seq 1 m) G = Some G'.
Proof.
  intros m. assert (A : forall s G, (forall b, (s <= b < s + m)%nat -> fits b) -> exists G', foldM step (seq s m) G = Some G').
  { induction m as [|m IH]; intros s G H; [cbn; eauto|]. cbn. destruct (step_defined G s) as (G1 & E); [apply H; lia|]. rewrite E. cbn. apply IH. intros b Hb. apply H. lia. }
  intros G H. apply A. intros b Hb. apply H. lia.
Qed.
Lemma foldM_app : forall {A S} (f : S -> A -> option S) l l' s, foldM f (l ++ l') s = let* s' := foldM f l s in foldM f l' s'.
Proof. induction l as [|a l IH]; intros l' s; auto. cbn. destruct (f s a); cbn; auto. Qed.
Lemma loop_row : forall m G, foldM step (seq 1 m) (fun _ _ => 1) = Some G -> (forall b, (1 <= b <= m)%nat -> fits b) /\ forall b k, G b k = row m b k.
Proof.
  induction m as [|m IH]; intros G H.
  - cbn in H. apply Some_inj in H. subst G. split; [lia|]. intros b k. unfold row. cbn [Nat.ltb andb]. replace ((b <? 0)%nat) with false by (symmetry; apply Nat.ltb_ge; lia). cbn [andb]. destruct b; cbn; auto.
  - rewrite seq_S, foldM_app in H. destruct (foldM step (seq 1 m) _) as [G0|] eqn:E0; [|discriminate]. cbn [bind foldM] in H. destruct (step G0 (1 + m)) as [G1|] eqn:E1; [|discriminate]. cbn in H. apply Some_inj in H. subst G1.
    destruct (IH G0 eq_refl) as [F0 R0]. destruct (step_some _ _ _ E1) as [F1 R1]. split; [intros b Hb; destruct (Nat.eq_dec b (1 + m)) as [-> | ]; auto; apply F0; lia|].
    intros b k. rewrite R1. cbv zeta. replace (1 + m - 1)%nat with m by lia. rewrite R0. unfold row. destruct (Nat.eqb_spec b m) as [->|N1].
    + replace ((m <? m)%nat) with false by (symmetry; apply Nat.ltb_ge; lia). replace ((m <? S m)%nat) with true by (symmetry; apply Nat.ltb_lt; lia). cbn [andb]. replace (m + 1)%nat with (1 + m)%nat by lia.
      destruct (hi (1 + m) <=? Z.of_nat k)%Z; auto. destruct (inside (1 + m) (Z.of_nat k)); auto. replace ((m <=? m)%nat) with true by (symmetry; apply Nat.leb_le; lia). replace ((m <=? S m)%nat) with true by (symmetry; apply Nat.leb_le; lia). reflexivity.
    + destruct (Nat.eqb_spec b (1 + m)) as [->|N2].
      * replace ((1 + m <? m)%nat) with false by (symmetry; apply Nat.ltb_ge; lia). replace ((1 + m <? S m)%nat) with false by (symmetry; apply Nat.ltb_ge; lia). replace ((1 + m <=? m)%nat) with false by (symmetry; apply Nat.leb_gt; lia). replace ((1 + m <=? S m)%nat) with true by (symmetry; apply Nat.leb_le; lia).
        rewrite !andb_false_r. cbn [andb]. replace ((1 <=? 1 + m)%nat) with true by (symmetry; apply Nat.leb_le; lia). cbn [andb]. reflexivity.
      * destruct (Nat.ltb_spec b m); destruct (Nat.ltb_spec b (S m)); try lia; destruct (Nat.leb_spec b m); destruct (Nat.leb_spec b (S m)); try lia; auto.
Qed.

(** ** Sums of squares *)
Definition total (m k : nat) : R := bsum (m + 1) (fun b => row m b k * row m b k).
Lemma iter_one : forall s, Nat.iter s (fun phi => sin (PI / 2 * phi)) 1 = 1.
Proof. induction s as [|s IH]; auto. change (sin (PI / 2 * Nat.iter s (fun phi => sin (PI / 2 * phi)) 1) = 1). rewrite IH, Rmult_1_r. apply sin_PI2. Qed.
Lemma phi_top : forall b, (0 < P b)%Z -> phi b (hi b) = 1.
Proof.
  intros b Hp. unfold phi, antoni_phi, hi. replace (k1 b + P b - k1 b)%Z with (P b) by lia. replace (IZR (P b) / IZR (P b)) with 1 by (field; apply IZR_neq; lia). rewrite iter_one. lra.
Qed.
(** Above the lower end of band [m+1], it and its neighbour share the energy. *)
Lemma top_two : forall m k, (0 <= P (m + 1))%Z -> (lo (m + 1) <= Z.of_nat k)%Z -> row (m + 1) m k * row (m + 1) m k + row (m + 1) (m + 1) k * row (m + 1) (m + 1) k = 1.
Proof.
  intros m k HP Hk. unfold row. replace ((m <? m + 1)%nat) with true by (symmetry; apply Nat.ltb_lt; lia). replace ((m + 1 <? m + 1)%nat) with false by (symmetry; apply Nat.ltb_ge; lia). replace ((1 <=? m + 1)%nat) with true by (symmetry; apply Nat.leb_le; lia). replace ((m + 1 <=? m + 1)%nat) with true by (symmetry; apply Nat.leb_le; lia). cbn [andb].
  destruct (Z.ltb_spec (Z.of_nat k) (lo (m + 1))); [lia|]. destruct (Z.leb_spec (hi (m + 1)) (Z.of_nat k)) as [Hh|Hh].
  - destruct (inside (m + 1) (Z.of_nat k)) eqn:E; [|ring]. unfold inside in E. apply andb_prop in E. destruct E as [E E3]. apply andb_prop in E. destruct E as [E1 E2]. replace (Z.of_nat k) with (hi (m + 1)) by lia. rewrite phi_top by lia. rewrite Rmult_1_r, sin_PI2. ring.
  - assert (E : inside (m + 1) (Z.of_nat k) = true). { unfold inside, lo, hi in *. rewrite !andb_true_iff. lia. } rewrite E. set (a := PI / 2 * _). pose proof (sin2_cos2 a) as Hs. unfold Rsqr in Hs. lra.
Qed.
Lemma below_top : forall m k, (0 <= P (m + 1))%Z -> (Z.of_nat k < lo (m + 1))%Z -> total (m + 1) k = total m k.
Proof.
  intros m k HP Hk. unfold total. replace (m + 1 + 1)%nat with (S (m + 1)) by lia. cbn [bsum].
  assert (Et : row (m + 1) (m + 1) k = 0). { unfold row. replace ((m + 1 <? m + 1)%nat) with false by (symmetry; apply Nat.ltb_ge; lia). replace ((1 <=? m + 1)%nat) with true by (symmetry; apply Nat.leb_le; lia). replace ((m + 1 <=? m + 1)%nat) with true by (symmetry; apply Nat.leb_le; lia). cbn [andb]. destruct (Z.ltb_spec (Z.of_nat k) (lo (m + 1))); [auto|lia]. }
  rewrite Et, Rmult_0_l, Rplus_0_r. apply bsum_ext. intros b Hb. assert (E : row (m + 1) b k = row m b k); [|now rewrite E]. unfold row.
  replace ((b <=? m + 1)%nat) with true by (symmetry; apply Nat.leb_le; lia). replace ((b <=? m)%nat) with true by (symmetry; apply Nat.leb_le; lia). replace ((b <? m + 1)%nat) with true by (symmetry; apply Nat.ltb_lt; lia). cbn [andb].
  destruct (Nat.ltb_spec b m); auto. replace b with m by lia. cbn [andb]. destruct (Z.leb_spec (hi (m + 1)) (Z.of_nat k)); [unfold lo, hi in *; lia|].
  replace (inside (m + 1) (Z.of_nat k)) with false; auto. symmetry. unfold inside. destruct (Z.leb_spec (lo (m + 1)) (Z.of_nat k)); [lia|]. now rewrite andb_false_r.
Qed.
Lemma total_0 : forall k, total 0 k = 1.
Proof. intros k. unfold total. cbn. unfold row. cbn. ring. Qed.
(** Never less than one. *)
Lemma total_ge : forall m k, (forall b, (1 <= b <= m)%nat -> (0 <= P b)%Z) -> 1 <= total m k.
Proof.
  induction m as [|m IH]; intros k HP; [rewrite total_0; lra|]. replace (S m) with (m + 1)%nat in * by lia. destruct (Z.lt_ge_cases (Z.of_nat k) (lo (m + 1))).
  - rewrite below_top; auto; [apply IH; intros; apply HP; lia|apply HP; lia].
  - unfold total. replace (m + 1 + 1)%nat with (S (S m)) by lia. cbn [bsum]. replace (S m) with (m + 1)%nat by lia. pose proof (top_two m k (HP (m + 1)%nat ltac:(lia)) H). pose proof (bsum_nonneg m (fun b => row (m + 1) b k * row (m + 1) b k) (fun i _ => Rle_0_sqr _)). lra.
Qed.
(** Exactly one when transitions do not overlap. *)
Lemma total_one : forall m k, (forall b, (1 <= b <= m)%nat -> (0 <= P b)%Z) -> (forall b, (1 <= b < m)%nat -> (hi b <= lo (b + 1))%Z) -> total m k = 1.
Proof.
  induction m as [|m IH]; intros k HP Hov; [apply total_0|]. replace (S m) with (m + 1)%nat in * by lia. destruct (Z.lt_ge_cases (Z.of_nat k) (lo (m + 1))).
  - rewrite below_top; auto; [apply IH; intros; [apply HP|apply Hov]; lia|apply HP; lia].
  - unfold total. replace (m + 1 + 1)%nat with (S (S m)) by lia. cbn [bsum]. replace (S m) with (m + 1)%nat by lia. pose proof (top_two m k (HP (m + 1)%nat ltac:(lia)) H).
    rewrite bsum_zero_ext; [lra|]. intros b Hb. assert (Hz : row (m + 1) b k = 0); [|rewrite Hz; ring]. unfold row. replace ((b <? m + 1)%nat) with true by (symmetry; apply Nat.ltb_lt; lia).
    assert (Hh : (hi (b + 1) <= lo (m + 1))%Z). { assert (A : forall d, (b + 1 + d < m + 1)%nat -> (hi (b + 1) <= lo (b + 1 + d + 1))%Z). { induction d as [|d IHd]; intros Hd; [rewrite Nat.add_0_r; apply Hov; lia|]. specialize (IHd ltac:(lia)). specialize (HP (b + 1 + d + 1)%nat ltac:(lia)). specialize (Hov (b + 1 + d + 1)%nat ltac:(lia)). replace (b + 1 + S d + 1)%nat with (b + 1 + d + 1 + 1)%nat by lia. unfold lo, hi in *. lia. }
      specialize (A (m - (b + 1))%nat ltac:(lia)). replace (b + 1 + (m - (b + 1)) + 1)%nat with (m + 1)%nat in A by lia. auto. }
    destruct (Z.leb_spec (hi (b + 1)) (Z.of_nat k)); [auto|lia].
Qed.
(** Support of the rows when the lower ends increase. *)
Lemma row_support : forall m b k, (b <= m)%nat -> (forall c, (1 <= c < m)%nat -> (lo c <= lo (c + 1))%Z) -> (forall c, (1 <= c <= m)%nat -> (0 <= P c)%Z) ->
  (((1 <= b)%nat /\ (Z.of_nat k < lo b)%Z) \/ ((b < m)%nat /\ (hi (b + 1) <= Z.of_nat k)%Z)) -> row m b k = 0.
Proof.
  intros m b k Hb Hlo HP H. unfold row. destruct ((b <? m)%nat && (hi (b + 1) <=? Z.of_nat k)%Z) eqn:E; auto. destruct H as [[H1 H2]|[H1 H2]].
  - replace ((1 <=? b)%nat) with true by (symmetry; apply Nat.leb_le; lia). replace ((b <=? m)%nat) with true by (symmetry; apply Nat.leb_le; lia). cbn [andb]. destruct (Z.ltb_spec (Z.of_nat k) (lo b)); [|lia].
    destruct (Nat.ltb_spec b m); cbn [andb]; auto. replace (inside (b + 1) (Z.of_nat k)) with false; auto. symmetry. unfold inside. specialize (Hlo b ltac:(lia)). destruct (Z.leb_spec (lo (b + 1)) (Z.of_nat k)); [lia|]. now rewrite andb_false_r.
  - exfalso. apply andb_false_elim in E. destruct E as [E|E]; [apply Nat.ltb_ge in E; lia|apply Z.leb_gt in E; lia].
Qed.
End Fold.
