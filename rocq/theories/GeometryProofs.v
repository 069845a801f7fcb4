(** Proofs about [GeometryModel]. *)
From Coq Require Import List ZArith Lia Reals Lra Psatz Bool Permutation.
From Verif Require Import Base BaseProofs Vec GeometryModel GeometrySpec.
Import ListNotations.
Local Open Scope R_scope.

Lemma Rltb_true : forall a b, Rltb a b = true <-> a < b.
Proof. intros. unfold Rltb. destruct (Rlt_dec a b); split; intros; auto; discriminate. Qed.
Lemma Rltb_false : forall a b, Rltb a b = false <-> b <= a.
Proof. intros. unfold Rltb. destruct (Rlt_dec a b); split; intros; auto; try lra; discriminate. Qed.
Lemma Rleb_true : forall a b, Rleb a b = true <-> a <= b.
Proof. intros. unfold Rleb. destruct (Rle_dec a b); split; intros; auto; discriminate. Qed.
Lemma Rleb_false : forall a b, Rleb a b = false <-> b < a.
Proof. intros. unfold Rleb. destruct (Rle_dec a b); split; intros; auto; try lra; discriminate. Qed.

Ltac rdec :=
  repeat match goal with
  | |- context [Rltb ?a ?b] => destruct (Rltb a b) eqn:?; [rewrite Rltb_true in * | rewrite Rltb_false in *]
  | |- context [Rleb ?a ?b] => destruct (Rleb a b) eqn:?; [rewrite Rleb_true in * | rewrite Rleb_false in *]
  end.

(** ** ccw3p *)
Definition tri (eps d : R) : Z :=
  if Rltb d eps && Rltb (- eps) d then 0%Z else if Rltb 0 d then 1%Z else (-1)%Z.

Lemma ccw3p_tri : forall eps a b c, ccw3p eps a b c = tri eps (orient a b c).
Proof. reflexivity. Qed.

Lemma tri_spec : forall eps d, 0 <= eps -> sign_with_margin eps d (tri eps d).
Proof.
  intros eps d He. unfold sign_with_margin, tri.
  rdec; simpl; try (left; split; [reflexivity|lra]); try (right; left; split; [reflexivity|lra]);
  (right; right; split; [reflexivity|lra]).
Qed.

Lemma tri_neg : forall eps d, 0 <= eps -> d <> 0 \/ 0 < eps -> tri eps (- d) = (- tri eps d)%Z.
Proof.
  intros eps d He Hd. unfold tri. rdec; simpl; auto; exfalso; lra.
Qed.

Lemma tri_pos : forall eps d, 0 < eps -> tri eps d = 1%Z <-> eps <= d.
Proof. intros. unfold tri. rdec; simpl; split; intros; try reflexivity; try discriminate; lra. Qed.
Lemma tri_m1 : forall eps d, 0 < eps -> tri eps d = (-1)%Z <-> d <= - eps.
Proof. intros. unfold tri. rdec; simpl; split; intros; try reflexivity; try discriminate; lra. Qed.
Lemma tri_0 : forall eps d, 0 < eps -> tri eps d = 0%Z <-> - eps < d < eps.
Proof. intros. unfold tri. rdec; simpl; split; intros; try reflexivity; try discriminate; lra. Qed.

Lemma tri_cases : forall eps d, tri eps d = 1%Z \/ tri eps d = (-1)%Z \/ tri eps d = 0%Z.
Proof. intros. unfold tri. rdec; simpl; auto. Qed.

Lemma orient_cycle : forall a b c, orient b c a = orient a b c.
Proof. intros. unfold orient. ring. Qed.
Lemma orient_swap12 : forall a b c, orient b a c = - orient a b c.
Proof. intros. unfold orient. ring. Qed.
Lemma orient_swap23 : forall a b c, orient a c b = - orient a b c.
Proof. intros. unfold orient. ring. Qed.

Lemma ccw_sign_proof : forall eps a b c, 0 <= eps ->
  sign_with_margin eps (orient a b c) (ccw3p eps a b c).
Proof. intros. rewrite ccw3p_tri. now apply tri_spec. Qed.

Lemma ccw_symmetry_proof : forall eps a b c, 0 < eps ->
  ccw3p eps b c a = ccw3p eps a b c /\
  ccw3p eps c a b = ccw3p eps a b c /\
  ccw3p eps b a c = (- ccw3p eps a b c)%Z /\
  ccw3p eps a c b = (- ccw3p eps a b c)%Z /\
  ccw3p eps c b a = (- ccw3p eps a b c)%Z.
Proof.
  intros. rewrite !ccw3p_tri, <- !tri_neg by lra.
  repeat split; f_equal; unfold orient; ring.
Qed.

(** ** check_intersection *)
Lemma check_sym_proof : forall eps a1 a2 b1 b2, 0 < eps ->
  check_intersection_2d eps a2 a1 b1 b2 = check_intersection_2d eps a1 a2 b1 b2 /\
  check_intersection_2d eps a1 a2 b2 b1 = check_intersection_2d eps a1 a2 b1 b2 /\
  check_intersection_2d eps b1 b2 a1 a2 = swap_flags (check_intersection_2d eps a1 a2 b1 b2).
Proof.
  intros eps a1 a2 b1 b2 He. unfold check_intersection_2d.
  rewrite !ccw3p_tri.
  rewrite (orient_swap12 a1 a2 b1), (orient_swap12 a1 a2 b2), (orient_swap12 b1 b2 a1), (orient_swap12 b1 b2 a2).
  rewrite !tri_neg by lra.
  destruct (tri_cases eps (orient a1 a2 b1)) as [E1|[E1|E1]]; rewrite E1;
  destruct (tri_cases eps (orient a1 a2 b2)) as [E2|[E2|E2]]; rewrite E2;
  destruct (tri_cases eps (orient b1 b2 a1)) as [E3|[E3|E3]]; rewrite E3;
  destruct (tri_cases eps (orient b1 b2 a2)) as [E4|[E4|E4]]; rewrite E4;
  repeat split; reflexivity.
Qed.

Lemma check_strict_iff : forall eps a1 a2 b1 b2, 0 < eps ->
  check_intersection_2d eps a1 a2 b1 b2 = 0%Z <->
  ((eps <= orient a1 a2 b1 /\ orient a1 a2 b2 <= - eps) \/
   (orient a1 a2 b1 <= - eps /\ eps <= orient a1 a2 b2)) /\
  ((eps <= orient b1 b2 a1 /\ orient b1 b2 a2 <= - eps) \/
   (orient b1 b2 a1 <= - eps /\ eps <= orient b1 b2 a2)).
Proof.
  intros eps a1 a2 b1 b2 He. unfold check_intersection_2d. rewrite !ccw3p_tri.
  rewrite <- (tri_pos eps (orient a1 a2 b1)), <- (tri_m1 eps (orient a1 a2 b1)), <- (tri_pos eps (orient a1 a2 b2)), <- (tri_m1 eps (orient a1 a2 b2)), <- (tri_pos eps (orient b1 b2 a1)), <- (tri_m1 eps (orient b1 b2 a1)), <- (tri_pos eps (orient b1 b2 a2)), <- (tri_m1 eps (orient b1 b2 a2)) by auto.
  destruct (tri_cases eps (orient a1 a2 b1)) as [E1|[E1|E1]]; rewrite E1;
  destruct (tri_cases eps (orient a1 a2 b2)) as [E2|[E2|E2]]; rewrite E2;
  destruct (tri_cases eps (orient b1 b2 a1)) as [E3|[E3|E3]]; rewrite E3;
  destruct (tri_cases eps (orient b1 b2 a2)) as [E4|[E4|E4]]; rewrite E4;
  simpl; clear; intuition discriminate.
Qed.

Lemma check_range : forall eps a1 a2 b1 b2,
  let c := check_intersection_2d eps a1 a2 b1 b2 in (c = -1 \/ c = 0 \/ c = 1 \/ c = 2 \/ c = 3)%Z.
Proof.
  intros. subst c. unfold check_intersection_2d.
  destruct (_ =? _)%Z; auto. destruct (_ =? _)%Z; auto.
  destruct (_ || _); destruct (_ || _); simpl; auto 6.
Qed.

(** Value of the code in terms of the four orientations. *)
Lemma check_nonneg : forall eps a1 a2 b1 b2,
  (0 <= check_intersection_2d eps a1 a2 b1 b2)%Z <->
  ccw3p eps a1 a2 b1 <> ccw3p eps a1 a2 b2 /\ ccw3p eps b1 b2 a1 <> ccw3p eps b1 b2 a2.
Proof.
  intros. unfold check_intersection_2d.
  destruct (Z.eqb_spec (ccw3p eps a1 a2 b1) (ccw3p eps a1 a2 b2)); [split; [lia|tauto]|].
  destruct (Z.eqb_spec (ccw3p eps b1 b2 a1) (ccw3p eps b1 b2 a2)); [split; [lia|tauto]|].
  split; [tauto|]. intros _. destruct (_ || _); destruct (_ || _); simpl; lia.
Qed.

Lemma denom_orient : forall a1 a2 b1 b2 : pt2,
  (Y a1 - Y a2) * (X b2 - X b1) + (X a2 - X a1) * (Y b2 - Y b1)
  = orient a1 a2 b2 - orient a1 a2 b1.
Proof. intros. unfold orient, X, Y. ring. Qed.

Lemma denom_orient' : forall a1 a2 b1 b2 : pt2,
  orient a1 a2 b2 - orient a1 a2 b1 = orient b1 b2 a1 - orient b1 b2 a2.
Proof. intros. unfold orient. ring. Qed.

(** What a reported intersection is: the crossing point of the two lines, with its
    parameters on both segments. *)
Lemma intersection_2d_some : forall eps a1 a2 b1 b2 c x, 0 < eps ->
  intersection_2d eps a1 a2 b1 b2 = (c, Some x) ->
  (0 <= c)%Z /\ c = check_intersection_2d eps a1 a2 b1 b2 /\
  let den := orient a1 a2 b2 - orient a1 a2 b1 in
  eps <= Rabs den /\
  x = seg_at b1 b2 (- orient a1 a2 b1 / den) /\
  x = seg_at a1 a2 (orient b1 b2 a1 / den).
Proof.
  intros eps a1 a2 b1 b2 c x He. unfold intersection_2d.
  destruct (Z.ltb_spec (check_intersection_2d eps a1 a2 b1 b2) 0); [discriminate|].
  rewrite !denom_orient.
  rdec; [discriminate|]. intros E. injection E as <- <-.
  split; [auto|]. split; [auto|]. cbv zeta. split; [auto|].
  assert (orient a1 a2 b2 - orient a1 a2 b1 <> 0).
  { intros Z. rewrite Z, Rabs_R0 in *. lra. }
  split.
  - unfold seg_at. f_equal; unfold orient, X, Y in *; field; auto.
  - unfold seg_at. f_equal; unfold orient, X, Y in *; field; auto.
Qed.

Lemma intersection_2d_codes : forall eps a1 a2 b1 b2,
  let r := intersection_2d eps a1 a2 b1 b2 in
  ((fst r = -1)%Z /\ snd r = None) \/ ((0 <= fst r <= 3)%Z /\ snd r <> None).
Proof.
  intros. subst r. unfold intersection_2d.
  pose proof (check_range eps a1 a2 b1 b2) as C. cbv zeta in C.
  destruct (Z.ltb_spec (check_intersection_2d eps a1 a2 b1 b2) 0).
  - left. simpl. split; [lia|auto].
  - rdec; simpl; [left; auto|]. right. split; [lia|discriminate].
Qed.

Lemma seg_at_on_line : forall a b t, orient a b (seg_at a b t) = 0.
Proof. intros. unfold orient, seg_at; simpl. ring. Qed.

(** Parameter of the crossing on the first segment, with the overshoot the tolerance
    allows. *)
Lemma crossing_param : forall eps e1 e2, 0 < eps -> tri eps e1 <> tri eps e2 ->
  eps <= Rabs (e1 - e2) -> -1 < e1 / (e1 - e2) < 2.
Proof.
  intros eps e1 e2 He Ht Hd.
  assert (D : e1 - e2 <> 0) by (intros Z; rewrite Z, Rabs_R0 in Hd; lra).
  unfold tri in Ht.
  assert (B : (eps <= e1 - e2) \/ (e1 - e2 <= - eps)).
  { unfold Rabs in Hd. destruct (Rcase_abs (e1 - e2)); [right|left]; lra. }
  assert (G : forall d, d <> 0 -> (0 < d -> -d < e1 < 2 * d) -> (d < 0 -> 2 * d < e1 < - d) ->
              -1 < e1 / d < 2).
  { intros d Hnz Hp Hn. destruct (Rtotal_order d 0) as [L|[L|L]]; [|contradiction|].
    - specialize (Hn L). split.
      + apply Rmult_lt_reg_r with (- d); [lra|]. unfold Rdiv.
        replace (e1 * / d * - d) with (- e1) by (field; auto). lra.
      + apply Rmult_lt_reg_r with (- d); [lra|]. unfold Rdiv.
        replace (e1 * / d * - d) with (- e1) by (field; auto). lra.
    - specialize (Hp L). split.
      + apply Rmult_lt_reg_r with d; [lra|]. unfold Rdiv.
        replace (e1 * / d * d) with e1 by (field; auto). lra.
      + apply Rmult_lt_reg_r with d; [lra|]. unfold Rdiv.
        replace (e1 * / d * d) with e1 by (field; auto). lra. }
  apply G; auto; intros Hs; revert Ht; rdec; simpl; intros Ht; try (exfalso; apply Ht; reflexivity); lra.
Qed.

Lemma crossing_param_strict : forall eps e1 e2, 0 < eps ->
  (eps <= e1 /\ e2 <= - eps) \/ (e1 <= - eps /\ eps <= e2) ->
  0 < e1 / (e1 - e2) < 1.
Proof.
  intros eps e1 e2 He [[A B]|[A B]].
  - split; [apply Rdiv_lt_0_compat; lra|].
    apply Rmult_lt_reg_r with (e1 - e2); [lra|]. unfold Rdiv.
    rewrite Rmult_assoc, Rinv_l by lra. lra.
  - replace (e1 / (e1 - e2)) with ((- e1) / (e2 - e1)) by (field; lra).
    split; [apply Rdiv_lt_0_compat; lra|].
    apply Rmult_lt_reg_r with (e2 - e1); [lra|]. unfold Rdiv.
    rewrite Rmult_assoc, Rinv_l by lra. lra.
Qed.

Lemma intersection_2d_sound_proof : forall eps a1 a2 b1 b2 c x, 0 < eps ->
  intersection_2d eps a1 a2 b1 b2 = (c, Some x) ->
  orient a1 a2 x = 0 /\ orient b1 b2 x = 0 /\
  (exists s t, -1 < s < 2 /\ -1 < t < 2 /\ x = seg_at a1 a2 s /\ x = seg_at b1 b2 t) /\
  (c = 0%Z -> exists s t, 0 < s < 1 /\ 0 < t < 1 /\ x = seg_at a1 a2 s /\ x = seg_at b1 b2 t).
Proof.
  intros eps a1 a2 b1 b2 c x He H.
  destruct (intersection_2d_some _ _ _ _ _ _ _ He H) as (Hc & Ec & Hd & Eb & Ea).
  split; [rewrite Ea; apply seg_at_on_line|].
  split; [rewrite Eb; apply seg_at_on_line|].
  assert (R1 : - orient a1 a2 b1 / (orient a1 a2 b2 - orient a1 a2 b1)
             = orient a1 a2 b1 / (orient a1 a2 b1 - orient a1 a2 b2)).
  { field. split; intros Z.
    - replace (orient a1 a2 b2 - orient a1 a2 b1) with 0 in Hd by lra. rewrite Rabs_R0 in Hd. lra.
    - rewrite Z, Rabs_R0 in Hd. lra. }
  rewrite R1 in Eb. rewrite denom_orient' in Ea.
  assert (Hd' : eps <= Rabs (orient a1 a2 b1 - orient a1 a2 b2)).
  { rewrite Rabs_minus_sym. exact Hd. }
  assert (Hd'' : eps <= Rabs (orient b1 b2 a1 - orient b1 b2 a2)).
  { rewrite <- denom_orient'. exact Hd. }
  split.
  - exists (orient b1 b2 a1 / (orient b1 b2 a1 - orient b1 b2 a2)),
      (orient a1 a2 b1 / (orient a1 a2 b1 - orient a1 a2 b2)).
    rewrite Ec in Hc. apply check_nonneg in Hc. rewrite !ccw3p_tri in Hc. destruct Hc as [N1 N2].
    repeat split; auto; try apply (crossing_param eps); auto.
  - intros C0. rewrite C0 in Ec. symmetry in Ec. apply check_strict_iff in Ec; auto.
    exists (orient b1 b2 a1 / (orient b1 b2 a1 - orient b1 b2 a2)),
      (orient a1 a2 b1 / (orient a1 a2 b1 - orient a1 a2 b2)).
    destruct Ec as [S1 S2].
    repeat split; auto; try apply (crossing_param_strict eps); auto.
Qed.

Lemma intersection_2d_complete_proof : forall eps a1 a2 b1 b2, 0 < eps ->
  (((eps <= orient a1 a2 b1 /\ orient a1 a2 b2 <= - eps) \/
    (orient a1 a2 b1 <= - eps /\ eps <= orient a1 a2 b2)) /\
   ((eps <= orient b1 b2 a1 /\ orient b1 b2 a2 <= - eps) \/
    (orient b1 b2 a1 <= - eps /\ eps <= orient b1 b2 a2)))
  <-> exists x, intersection_2d eps a1 a2 b1 b2 = (0%Z, Some x).
Proof.
  intros eps a1 a2 b1 b2 He. split.
  - intros H. pose proof H as H'. apply check_strict_iff in H; auto.
    unfold intersection_2d. rewrite H. simpl. rewrite denom_orient. rdec; [|eexists; reflexivity].
    exfalso. destruct H' as [[[A B]|[A B]] _]; unfold Rabs in *; destruct (Rcase_abs _); lra.
  - intros [x H]. destruct (intersection_2d_some _ _ _ _ _ _ _ He H) as (_ & Ec & _).
    symmetry in Ec. now apply check_strict_iff in Ec.
Qed.

Lemma intersection_2d_none_proof : forall eps a1 a2 b1 b2, 0 < eps ->
  (eps <= orient a1 a2 b1 /\ eps <= orient a1 a2 b2) \/
  (orient a1 a2 b1 <= - eps /\ orient a1 a2 b2 <= - eps) \/
  (eps <= orient b1 b2 a1 /\ eps <= orient b1 b2 a2) \/
  (orient b1 b2 a1 <= - eps /\ orient b1 b2 a2 <= - eps) ->
  intersection_2d eps a1 a2 b1 b2 = ((-1)%Z, None).
Proof.
  intros eps a1 a2 b1 b2 He H.
  assert (C : check_intersection_2d eps a1 a2 b1 b2 = (-1)%Z).
  { pose proof (check_range eps a1 a2 b1 b2) as Cr. cbv zeta in Cr.
    destruct (Z_lt_le_dec (check_intersection_2d eps a1 a2 b1 b2) 0); [lia|].
    apply check_nonneg in l. rewrite !ccw3p_tri in l. destruct l as [N1 N2]. exfalso.
    rewrite <- (tri_pos eps (orient a1 a2 b1)), <- (tri_m1 eps (orient a1 a2 b1)), <- (tri_pos eps (orient a1 a2 b2)), <- (tri_m1 eps (orient a1 a2 b2)), <- (tri_pos eps (orient b1 b2 a1)), <- (tri_m1 eps (orient b1 b2 a1)), <- (tri_pos eps (orient b1 b2 a2)), <- (tri_m1 eps (orient b1 b2 a2)) in H by auto.
    destruct H as [[A B]|[[A B]|[[A B]|[A B]]]]; rewrite A, B in *; auto. }
  unfold intersection_2d. rewrite C. reflexivity.
Qed.

(** ** intersection_seg_plane *)
Lemma seg_plane_sound_proof : forall eps a1 a2 p n c x,
  length a2 = length a1 -> length p = length a1 -> length n = length a1 -> 0 < eps ->
  intersection_seg_plane eps a1 a2 p n = (c, Some x) ->
  exists s, - eps <= s <= 1 + eps /\ x = vadd (vscal s (vminus a2 a1)) a1 /\
    dot n (vminus x p) = 0 /\ eps < Rabs (dot n (vminus a2 a1)) /\
    (c = 0 \/ c = 1)%Z /\ (c = 1%Z <-> Rabs s < eps \/ Rabs (s - 1) < eps).
Proof.
  intros eps a1 a2 p n c x L1 L2 L3 He. unfold intersection_seg_plane.
  destruct (Rltb eps _) eqn:E1; [|discriminate]. apply Rltb_true in E1.
  set (s := _ / _).
  destruct (Rleb (0 - eps) s && Rleb s (1 + eps)) eqn:E2; [|discriminate].
  apply andb_prop in E2. destruct E2 as [E2 E3]. rewrite Rleb_true in *.
  intros H. exists s.
  assert (Hx : x = vadd (vscal s (vminus a2 a1)) a1).
  { destruct (_ || _); injection H as <- <-; auto. }
  split; [lra|]. split; [exact Hx|]. split.
  - rewrite Hx, dot_vminus_r, dot_vadd_r, dot_vscal_r by vlen.
    subst s. rewrite (dot_vminus_r a1 p n) by vlen. field.
    intros Z. rewrite Z, Rabs_R0 in E1. lra.
  - split; [auto|].
    destruct (Rltb (Rabs s) eps) eqn:E4; destruct (Rltb (Rabs (s - 1)) eps) eqn:E5; simpl in H;
      injection H as <- _; rewrite ?Rltb_true, ?Rltb_false in *;
      (split; [auto|]; split; intros; auto; try discriminate).
    destruct H; lra.
Qed.

Lemma seg_plane_complete_proof : forall eps a1 a2 p n s,
  length a2 = length a1 -> length p = length a1 -> length n = length a1 -> 0 < eps ->
  eps < Rabs (dot n (vminus a2 a1)) -> - eps <= s <= 1 + eps ->
  dot n (vminus (vadd (vscal s (vminus a2 a1)) a1) p) = 0 ->
  exists c, (0 <= c)%Z /\
    intersection_seg_plane eps a1 a2 p n = (c, Some (vadd (vscal s (vminus a2 a1)) a1)).
Proof.
  intros eps a1 a2 p n s L1 L2 L3 He Hd Hs H.
  rewrite dot_vminus_r, dot_vadd_r, dot_vscal_r in H by vlen.
  assert (NZ : dot n (vminus a2 a1) <> 0) by (intros Z; rewrite Z, Rabs_R0 in Hd; lra).
  assert (Es : - dot n (vminus a1 p) / dot n (vminus a2 a1) = s).
  { rewrite (dot_vminus_r a1 p n) by vlen.
    apply Rmult_eq_reg_r with (dot n (vminus a2 a1)); auto.
    unfold Rdiv. rewrite Rmult_assoc, Rinv_l by auto. lra. }
  unfold intersection_seg_plane. rewrite Es.
  apply Rltb_true in Hd. rewrite Hd.
  destruct (Rleb (0 - eps) s) eqn:E2; [|rewrite Rleb_false in E2; lra].
  destruct (Rleb s (1 + eps)) eqn:E3; [|rewrite Rleb_false in E3; lra]. simpl.
  destruct (_ || _); eexists; (split; [|reflexivity]); lia.
Qed.

(** No intersection is reported when both ends are on the same side by more than
    [eps] times the height difference (in particular never for parallel segments). *)
Lemma seg_plane_same_side_proof : forall eps a1 a2 p n,
  length a2 = length a1 -> length p = length a1 -> length n = length a1 -> 0 < eps ->
  let h1 := dot n (vminus a1 p) in let h2 := dot n (vminus a2 p) in
  (0 < h1 /\ 0 < h2 \/ h1 < 0 /\ h2 < 0) ->
  eps * Rabs (h2 - h1) < Rabs h1 -> eps * Rabs (h2 - h1) < Rabs h2 ->
  intersection_seg_plane eps a1 a2 p n = ((-1)%Z, None).
Proof.
  intros eps a1 a2 p n L1 L2 L3 He h1 h2 Hs H1 H2.
  unfold intersection_seg_plane.
  assert (Hden : dot n (vminus a2 a1) = h2 - h1).
  { subst h1 h2. rewrite !dot_vminus_r by vlen. ring. }
  rewrite Hden. fold h1.
  destruct (Rltb eps _) eqn:E1; [|reflexivity]. apply Rltb_true in E1.
  destruct (Rleb (0 - eps) (- h1 / (h2 - h1))) eqn:E2; [|reflexivity].
  destruct (Rleb (- h1 / (h2 - h1)) (1 + eps)) eqn:E3; [|reflexivity].
  exfalso. rewrite Rleb_true in *.
  set (d := h2 - h1) in *. set (s := - h1 / d) in *.
  assert (D : d <> 0) by (intros Z; rewrite Z, Rabs_R0 in E1; lra).
  assert (Esd : s * d = - h1) by (subst s; field; auto).
  assert (h2 = h1 + d) by (subst d; ring).
  unfold Rabs in *. destruct (Rcase_abs d), (Rcase_abs h1), (Rcase_abs h2); nra.
Qed.

(** ** area *)
Definition cr (e : pt2 * pt2) : R := X (fst e) * Y (snd e) - X (snd e) * Y (fst e).
Definition Asum (l : list (pt2 * pt2)) : R := Rsum (map cr l).

Lemma shoelace_Asum : forall l, shoelace l = / 2 * Asum (edges l).
Proof. reflexivity. Qed.

(** The edge list the loop of [area_2d_polygon] goes through. *)
Definition next_edges (l : list pt2) : list (pt2 * pt2) :=
  match l with [] => [] | a :: t => chain a (t ++ [a]) end.

Lemma last_indep : forall {A} (l : list A) d d', l <> [] -> last l d = last l d'.
Proof.
  induction l as [|a l IH]; intros d d' H; [contradiction|].
  destruct l; [reflexivity|]. change (last (a0 :: l) d = last (a0 :: l) d'). apply IH. discriminate.
Qed.

Lemma chain_app : forall {A} (l : list A) m a, chain a (l ++ m) = chain a l ++ chain (last l a) m.
Proof.
  induction l as [|b l IH]; intros m a; [reflexivity|].
  simpl. rewrite IH. f_equal. f_equal. f_equal. destruct l; [reflexivity|].
  apply last_indep. discriminate.
Qed.

Lemma last_cons : forall {A} (l : list A) a d, last (a :: l) d = last l a.
Proof.
  intros A l a d. destruct l; [reflexivity|]. change (last (a0 :: l) d = last (a0 :: l) a).
  apply last_indep. discriminate.
Qed.

Lemma edges_next : forall l, Permutation (edges l) (next_edges l).
Proof.
  intros [|a t]; [constructor|]. unfold edges, next_edges.
  rewrite chain_app. rewrite last_cons. simpl.
  apply Permutation_cons_append.
Qed.

Lemma Rsum_perm : forall l l', Permutation l l' -> Rsum l = Rsum l'.
Proof. induction 1; simpl; lra. Qed.

Lemma Asum_perm : forall l l', Permutation l l' -> Asum l = Asum l'.
Proof. intros. apply Rsum_perm, Permutation_map. auto. Qed.

Lemma Asum_app : forall l m, Asum (l ++ m) = Asum l + Asum m.
Proof. intros. unfold Asum. now rewrite map_app, Rsum_app. Qed.

Definition trap (e : pt2 * pt2) : R := (X (snd e) - X (fst e)) * (0.5 * (Y (snd e) + Y (fst e))).

Lemma fold_sub : forall {A} (f : A -> R) l a, fold_left (fun a c => a - f c) l a = a - Rsum (map f l).
Proof. unfold Rsum. induction l; intros; simpl; [lra|]. rewrite IHl. lra. Qed.

Lemma nth_last : forall {A} (l : list A) d, nth (length l - 1) l d = last l d.
Proof.
  intros A l d. induction l as [|x l IH]; [reflexivity|].
  destruct l as [|y l]; [reflexivity|].
  change (last (x :: y :: l) d) with (last (y :: l) d). rewrite <- IH.
  simpl. now rewrite Nat.sub_0_r.
Qed.

Lemma area_loop : forall l, area_2d_polygon l = - Rsum (map trap (next_edges l)).
Proof.
  intros l. unfold area_2d_polygon.
  rewrite (fold_sub (fun c1 : nat =>
    (X (nth (if (c1 =? length l - 1)%nat then 0%nat else S c1) l (0, 0)) - X (nth c1 l (0, 0))) *
    (0.5 * (Y (nth (if (c1 =? length l - 1)%nat then 0%nat else S c1) l (0, 0)) + Y (nth c1 l (0, 0)))))).
  rewrite Rminus_0_l. f_equal. f_equal.
  destruct l as [|a t]; [reflexivity|].
  unfold next_edges.
  (* generalise the suffix *)
  assert (G : forall pre l' c, (pre ++ l' = a :: t) -> last pre c = c -> pre <> [] ->
    map (fun c1 => trap (nth c1 (a :: t) (0,0),
           nth (if (c1 =? length (a :: t) - 1)%nat then 0%nat else S c1) (a :: t) (0,0)))
        (seq (length pre - 1) (S (length l')))
    = map trap (chain c (l' ++ [a]))).
  { intros pre l'. revert pre. induction l' as [|b l' IH]; intros pre c Hp Hl Hn.
    - rewrite app_nil_r in Hp. subst pre. cbn [seq map app chain].
      rewrite Nat.eqb_refl. simpl (nth 0 _ _).
      replace (nth (length (a :: t) - 1) (a :: t) (0,0)) with c; [reflexivity|].
      rewrite nth_last, <- Hl. apply last_indep. discriminate.
    - cbn [seq map app chain].
      assert (Lp : (length pre >= 1)%nat) by (destruct pre; [contradiction|simpl; lia]).
      assert (LL : length (a :: t) = (length pre + S (length l'))%nat).
      { rewrite <- Hp, app_length. reflexivity. }
      f_equal.
      + destruct (Nat.eqb_spec (length pre - 1) (length (a :: t) - 1)); [lia|].
        f_equal. f_equal.
        * rewrite <- Hp, app_nth1 by lia. rewrite nth_last, <- Hl. now apply last_indep.
        * rewrite <- Hp. replace (S (length pre - 1)) with (length pre) by lia.
          rewrite app_nth2 by lia. now rewrite Nat.sub_diag.
      + replace (S (length pre - 1)) with (length (pre ++ [b]) - 1)%nat
          by (rewrite app_length; simpl; lia).
        apply (IH (pre ++ [b]) b).
        * rewrite <- app_assoc. exact Hp.
        * now rewrite last_last.
        * destruct pre; discriminate. }
  specialize (G [a] t a eq_refl eq_refl).
  simpl length in *. simpl Nat.sub in *. 
  rewrite <- G by discriminate. reflexivity.
Qed.

Lemma sum_chain_potential : forall (g : pt2 -> R) l a,
  Rsum (map (fun e : pt2 * pt2 => g (snd e) - g (fst e)) (chain a l)) = g (last l a) - g a.
Proof.
  induction l as [|b l IH]; intros a; simpl; [lra|]. rewrite IH.
  change (g b - g a + (g (last l b) - g b) = g (last (b :: l) a) - g a).
  rewrite last_cons. lra.
Qed.

Lemma sum_edges_potential : forall (g : pt2 -> R) l,
  Rsum (map (fun e : pt2 * pt2 => g (snd e) - g (fst e)) (edges l)) = 0.
Proof.
  intros g [|a t]; [reflexivity|]. unfold edges. rewrite sum_chain_potential.
  rewrite (last_indep (a :: t) (last (a :: t) a) a) by discriminate. lra.
Qed.

Lemma Rsum_map_perm : forall {A} (f : A -> R) l l', Permutation l l' -> Rsum (map f l) = Rsum (map f l').
Proof. intros. apply Rsum_perm, Permutation_map. auto. Qed.

Lemma Rsum_map_minus : forall {A} (f g : A -> R) l,
  Rsum (map (fun x => f x - g x) l) = Rsum (map f l) - Rsum (map g l).
Proof. induction l; simpl; lra. Qed.
Lemma Rsum_map_scal : forall {A} k (f : A -> R) l, Rsum (map (fun x => k * f x) l) = k * Rsum (map f l).
Proof. induction l; simpl; lra. Qed.
Lemma Rsum_map_ext : forall {A} (f g : A -> R) l, (forall x, f x = g x) -> Rsum (map f l) = Rsum (map g l).
Proof. intros. f_equal. apply map_ext. auto. Qed.

Lemma area_shoelace_proof : forall l, area_2d_polygon l = shoelace l.
Proof.
  intros l. rewrite area_loop, shoelace_Asum.
  rewrite <- (Rsum_map_perm trap _ _ (edges_next l)).
  pose proof (sum_edges_potential (fun p => X p * Y p) l) as P. cbv beta in P.
  unfold Asum.
  assert (E : Rsum (map (fun e : pt2 * pt2 => X (snd e) * Y (snd e) - X (fst e) * Y (fst e)) (edges l))
     = 2 * Rsum (map trap (edges l)) + Rsum (map cr (edges l))).
  { rewrite <- Rsum_map_scal, <- Rsum_map_plus. apply Rsum_map_ext. intros [p q]. unfold trap, cr; simpl. lra. }
  rewrite E in P. lra.
Qed.

(** Rotating and reversing a closed polygon. *)
Lemma edges_rotate : forall (a : pt2) l, Permutation (edges (l ++ [a])) (edges (a :: l)).
Proof.
  intros a l. destruct l as [|b l]; [apply Permutation_refl|].
  unfold edges. simpl app. cbv iota.
  replace (last (b :: l ++ [a]) b) with a by (rewrite last_cons, last_last; reflexivity).
  change (b :: l ++ [a]) with ((b :: l) ++ [a]). rewrite chain_app.
  change (chain (last (a :: b :: l) a) (a :: b :: l))
    with ((last (b :: l) a, a) :: chain a (b :: l)).
  rewrite Permutation_app_comm. apply Permutation_refl.
Qed.

Lemma edges_rotate_app : forall (l m : list pt2), Permutation (edges (l ++ m)) (edges (m ++ l)).
Proof.
  induction l as [|a l IH]; intros m; [rewrite app_nil_r; apply Permutation_refl|].
  change ((a :: l) ++ m) with (a :: (l ++ m)).
  rewrite <- edges_rotate. rewrite <- app_assoc. rewrite IH.
  rewrite <- app_assoc. apply Permutation_refl.
Qed.

Definition flip (e : pt2 * pt2) : pt2 * pt2 := (snd e, fst e).

Lemma chain_rev : forall (l : list pt2) a b,
  Permutation (chain b (rev l ++ [a])) (map flip (chain a (l ++ [b]))).
Proof.
  induction l as [|c l IH]; intros a b.
  - simpl. apply Permutation_refl.
  - cbn [rev app chain map]. rewrite <- app_assoc. cbn [app].
    replace (rev l ++ [c; a]) with ((rev l ++ [c]) ++ [a]) by (rewrite <- app_assoc; reflexivity).
    rewrite chain_app, last_last. cbn [chain]. rewrite IH.
    rewrite Permutation_app_comm. reflexivity.
Qed.

Lemma edges_rev : forall (l : list pt2), Permutation (edges (rev l)) (map flip (edges l)).
Proof.
  intros [|a t]; [constructor|].
  simpl rev. rewrite edges_rotate. rewrite !edges_next. unfold next_edges.
  apply chain_rev.
Qed.

Lemma area_laws_proof : forall l,
  area_2d_polygon (rev l) = - area_2d_polygon l /\
  (forall l1 l2, l = l1 ++ l2 -> area_2d_polygon (l2 ++ l1) = area_2d_polygon l) /\
  (forall dx dy, area_2d_polygon (map (fun p => (fst p + dx, snd p + dy)) l) = area_2d_polygon l) /\
  (forall k, area_2d_polygon (map (fun p => (k * fst p, k * snd p)) l) = k * k * area_2d_polygon l).
Proof.
  intros l. rewrite (area_shoelace_proof l), (shoelace_Asum l).
  assert (EM : forall (g : pt2 -> pt2) m, edges (map g m) = map (fun e => (g (fst e), g (snd e))) (edges m)).
  { intros g m. destruct m as [|a t]; [reflexivity|].
    assert (C : forall m a, chain (g a) (map g m) = map (fun e => (g (fst e), g (snd e))) (chain a m)).
    { induction m; intros; simpl; auto. now rewrite IHm. }
    unfold edges. cbn [map]. 
    replace (last (g a :: map g t) (g a)) with (g (last (a :: t) a)).
    - apply (C (a :: t)).
    - rewrite !last_cons. clear. revert a. induction t as [|b t IH]; intros a; [reflexivity|].
      simpl map. rewrite !last_cons. apply IH. }
  split; [|split; [|split]].
  - rewrite (area_shoelace_proof (rev l)), shoelace_Asum.
    rewrite (Asum_perm _ _ (edges_rev l)). unfold Asum. rewrite map_map.
    rewrite (Rsum_map_ext (fun x => cr (flip x)) (fun x => (-1) * cr x)).
    + rewrite Rsum_map_scal. lra.
    + intros [p q]. unfold cr, flip; simpl. lra.
  - intros l1 l2 ->. rewrite area_shoelace_proof, shoelace_Asum.
    now rewrite (Asum_perm _ _ (edges_rotate_app l2 l1)).
  - intros dx dy. rewrite area_shoelace_proof, shoelace_Asum. rewrite EM. unfold Asum.
    rewrite map_map.
    pose proof (sum_edges_potential (fun p => dx * Y p - dy * X p) l) as P. cbv beta in P.
    rewrite (Rsum_map_ext (fun x => cr (fst (fst x) + dx, snd (fst x) + dy, (fst (snd x) + dx, snd (snd x) + dy)))
       (fun e => cr e + (dx * Y (snd e) - dy * X (snd e) - (dx * Y (fst e) - dy * X (fst e))))).
    + rewrite Rsum_map_plus. rewrite P. lra.
    + intros [[? ?] [? ?]]. unfold cr, X, Y; simpl. lra.
  - intros k. rewrite area_shoelace_proof, shoelace_Asum. rewrite EM. unfold Asum.
    rewrite map_map.
    rewrite (Rsum_map_ext (fun x => cr (k * fst (fst x), k * snd (fst x), (k * fst (snd x), k * snd (snd x))))
       (fun e => (k * k) * cr e)).
    + rewrite Rsum_map_scal. lra.
    + intros [[? ?] [? ?]]. unfold cr, X, Y; simpl. lra.
Qed.

(** ** point in polygon *)
Lemma is_left_tri : forall eps a b p, 0 < eps -> is_left eps a b p = tri eps (orient a b p).
Proof.
  intros. unfold is_left, tri. fold (orient a b p).
  change ((X b - X a) * (Y p - Y a) - (X p - X a) * (Y b - Y a)) with (orient a b p).
  unfold Rabs. destruct (Rcase_abs (orient a b p)); rdec; simpl; auto; lra.
Qed.

(** Contribution of one edge to the winding number. *)
Definition wcontrib (eps : R) (p : pt2) (e : pt2 * pt2) : Z :=
  if Rleb (Y (fst e)) (Y p) then
    if Rltb (Y p) (Y (snd e)) then if (0 <? is_left eps (fst e) (snd e) p)%Z then 1%Z else 0%Z else 0%Z
  else if Rleb (Y (snd e)) (Y p) then if (is_left eps (fst e) (snd e) p <? 0)%Z then (-1)%Z else 0%Z else 0%Z.
Definition on_bnd (eps : R) (p : pt2) (e : pt2 * pt2) : bool :=
  (ccw3p eps (fst e) (snd e) p =? 0)%Z && on_segment (fst e) (snd e) p.

Definition Zsum (l : list Z) : Z := fold_right Z.add 0%Z l.

Lemma winding_step_eq : forall eps p wn a b,
  winding_step eps p wn a b = if on_bnd eps p (a, b) then None else Some (wn + wcontrib eps p (a, b))%Z.
Proof.
  intros. unfold winding_step, on_bnd, wcontrib. simpl fst; simpl snd.
  destruct (_ && _); auto.
  destruct (Rleb (Y a) (Y p)); [destruct (Rltb (Y p) (Y b)) | destruct (Rleb (Y b) (Y p))];
  try destruct (_ <? _)%Z; f_equal; lia.
Qed.

Lemma winding_loop_eq : forall eps p l j wn,
  winding_loop eps p j l wn =
  if existsb (on_bnd eps p) (chain j l) then None
  else Some (wn + Zsum (map (wcontrib eps p) (chain j l)))%Z.
Proof.
  induction l as [|i l IH]; intros j wn.
  - simpl. f_equal. lia.
  - cbn [winding_loop chain existsb map Zsum fold_right]. rewrite winding_step_eq.
    destruct (on_bnd eps p (j, i)); simpl; [reflexivity|].
    rewrite IH. destruct (existsb _ _); auto. f_equal. unfold Zsum. lia.
Qed.

Lemma inside_eq : forall eps p l,
  is_inside_2d_polygon eps p l =
  if existsb (on_bnd eps p) (edges l) then 1%Z
  else if (Zsum (map (wcontrib eps p) (edges l)) =? 0)%Z then (-1)%Z else 0%Z.
Proof.
  intros eps p [|a t]; [reflexivity|].
  unfold is_inside_2d_polygon. rewrite winding_loop_eq.
  rewrite (last_indep _ (0,0) a) by discriminate. unfold edges.
  destruct (existsb _ _); auto.
Qed.

Lemma on_segment_true : forall a b p, on_segment a b p = true <->
  Rmin (X a) (X b) <= X p <= Rmax (X a) (X b) /\ Rmin (Y a) (Y b) <= Y p <= Rmax (Y a) (Y b).
Proof.
  intros. unfold on_segment. rewrite !andb_true_iff, !Rleb_true. tauto.
Qed.

Lemma seg_box : forall u v t, 0 <= t <= 1 -> Rmin u v <= u + t * (v - u) <= Rmax u v.
Proof.
  intros. unfold Rmin, Rmax. destruct (Rle_dec u v); split; nra.
Qed.

Lemma inside_boundary_proof : forall eps l a b p, 0 < eps ->
  In (a, b) (edges l) -> on_edge a b p -> is_inside_2d_polygon eps p l = 1%Z.
Proof.
  intros eps l a b p He Hin [t [Ht Hp]]. rewrite inside_eq.
  replace (existsb (on_bnd eps p) (edges l)) with true; [reflexivity|].
  symmetry. apply existsb_exists. exists (a, b). split; [auto|].
  unfold on_bnd; simpl. apply andb_true_intro. split.
  - rewrite ccw3p_tri. subst p. rewrite seg_at_on_line. apply Z.eqb_eq. apply tri_0; lra.
  - apply on_segment_true. subst p. unfold seg_at, X, Y; simpl. split; apply seg_box; auto.
Qed.

(** A cyclic sequence without a step from F to T is constant. *)
Lemma chain_no_up : forall (q : pt2 -> bool) l a,
  (forall e, In e (chain a l) -> q (fst e) = false -> q (snd e) = false) ->
  q a = false -> forall v, In v l -> q v = false.
Proof.
  induction l as [|b l IH]; intros a H Ha v Hv; [destruct Hv|].
  assert (Hb : q b = false) by (apply (H (a, b)); simpl; auto).
  destruct Hv as [<-|Hv]; auto.
  apply (IH b); auto. intros e He. apply H. simpl. auto.
Qed.

Lemma last_In : forall {A} (l : list A) d, l <> [] -> In (last l d) l.
Proof.
  induction l as [|a l IH]; intros d H; [contradiction|].
  destruct l; [left; reflexivity|]. right. apply (IH d). discriminate.
Qed.

Lemma cyclic_constant : forall (q : pt2 -> bool) l,
  (forall e, In e (edges l) -> q (fst e) = false -> q (snd e) = false) ->
  (forall v, In v l -> q v = false) \/ (forall v, In v l -> q v = true).
Proof.
  intros q [|a t] H; [left; simpl; tauto|].
  unfold edges in H. set (z := last (a :: t) a) in *.
  destruct (existsb (fun v => negb (q v)) (a :: t)) eqn:E.
  - left. apply existsb_exists in E. destruct E as [w [Hw Qw]].
    apply negb_true_iff in Qw.
    assert (Qz : q z = false).
    { apply in_split in Hw. destruct Hw as [l1 [l2 Hw]].
      rewrite Hw in H. rewrite chain_app in H. cbn [chain] in H.
      assert (z = last l2 w).
      { subst z. rewrite Hw. clear. induction l1; simpl app; [apply last_cons|].
        rewrite last_cons. rewrite <- IHl1. destruct (l1 ++ w :: l2) eqn:E; [destruct l1; discriminate|].
        apply last_indep. discriminate. }
      destruct l2 as [|c l2]; [simpl in *; congruence|].
      rewrite H0. apply (chain_no_up q (c :: l2) w).
      - intros e He. apply H. apply in_or_app. right. simpl. auto.
      - auto.
      - apply last_In. discriminate. }
    intros v Hv. apply (chain_no_up q (a :: t) z); auto.
  - right. intros v Hv. destruct (q v) eqn:Q; auto.
    assert (existsb (fun v => negb (q v)) (a :: t) = true); [|congruence].
    apply existsb_exists. exists v. rewrite Q. auto.
Qed.

(** Vertices relative to p all in an open half plane: strictly increasing angle around
    a cycle is impossible. *)
Definition crs (p a b : pt2) : R := (X a - X p) * (Y b - Y p) - (X b - X p) * (Y a - Y p).
Lemma orient_crs : forall a b p, orient a b p = crs p a b.
Proof. intros. unfold orient, crs, X, Y. ring. Qed.

Lemma chain_trans : forall (Rel : pt2 -> pt2 -> Prop) (P : pt2 -> Prop) l a,
  (forall x y z, P x -> P y -> P z -> Rel x y -> Rel y z -> Rel x z) ->
  (forall v, In v (a :: l) -> P v) ->
  (forall e, In e (chain a l) -> Rel (fst e) (snd e)) ->
  l <> [] -> Rel a (last l a).
Proof.
  intros Rel P l. induction l as [|b l IH]; intros a T HP HR Hn; [contradiction|].
  assert (Hab : Rel a b) by (apply (HR (a, b)); simpl; auto).
  destruct l as [|c l]; [exact Hab|].
  rewrite last_cons. apply (T a b).
  - apply HP; simpl; auto.
  - apply HP; simpl; auto.
  - apply HP. right. right. change (In (last (c :: l) b) (c :: l)). apply last_In. discriminate.
  - exact Hab.
  - apply IH; auto; try discriminate.
    + intros v Hv. apply HP. simpl in *. tauto.
    + intros e He. apply HR. simpl in *. tauto.
Qed.

Lemma cyclic_no_increase : forall (Rel : pt2 -> pt2 -> Prop) (P : pt2 -> Prop) l,
  (forall x y z, P x -> P y -> P z -> Rel x y -> Rel y z -> Rel x z) ->
  (forall x, ~ Rel x x) -> l <> [] -> (forall v, In v l -> P v) ->
  ~ (forall e, In e (edges l) -> Rel (fst e) (snd e)).
Proof.
  intros Rel P l T I Hn HP H. destruct l as [|a t]; [contradiction|].
  unfold edges in H. apply (I (last (a :: t) a)).
  assert (L : last (a :: t) (last (a :: t) a) = last (a :: t) a) by (apply last_indep; discriminate).
  rewrite <- L at 2. apply (chain_trans Rel P (a :: t)); auto; try discriminate.
  intros v [<-|Hv]; auto. apply HP, last_In. discriminate.
Qed.

Lemma crs_trans_up : forall p x y z, 0 < Y y - Y p -> 0 < Y x - Y p -> 0 < Y z - Y p ->
  0 < crs p x y -> 0 < crs p y z -> 0 < crs p x z.
Proof.
  intros p x y z Hy Hx Hz H1 H2.
  apply Rmult_lt_reg_l with (Y y - Y p); [auto|]. rewrite Rmult_0_r.
  replace ((Y y - Y p) * crs p x z) with ((Y x - Y p) * crs p y z + (Y z - Y p) * crs p x y)
    by (unfold crs; ring).
  nra.
Qed.
Lemma crs_trans_down : forall p x y z, Y y - Y p < 0 -> Y x - Y p < 0 -> Y z - Y p < 0 ->
  0 < crs p x y -> 0 < crs p y z -> 0 < crs p x z.
Proof.
  intros p x y z Hy Hx Hz H1 H2.
  assert (E : (Y y - Y p) * crs p x z = (Y x - Y p) * crs p y z + (Y z - Y p) * crs p x y)
    by (unfold crs; ring).
  nra.
Qed.

(** every vertex has an outgoing and an incoming edge *)
Lemma edges_ex : forall (l : list pt2) v, In v l ->
  (exists w, In w l /\ In (v, w) (edges l)) /\ (exists u, In u l /\ In (u, v) (edges l)).
Proof.
  intros l v Hv.
  apply in_split in Hv. destruct Hv as [l1 [l2 ->]].
  split.
  - destruct l2 as [|w l2].
    + exists (hd v l1). split; [destruct l1; simpl; auto|].
      assert (G : In (v, hd v l1) (edges (v :: l1))).
      { apply (Permutation_in _ (Permutation_sym (edges_next _))). unfold next_edges.
        destruct l1; simpl; auto. }
      apply (Permutation_in _ (edges_rotate_app [v] l1)). exact G.
    + exists w. split; [apply in_or_app; simpl; auto|].
      apply (Permutation_in _ (edges_rotate_app (v :: w :: l2) l1)).
      apply (Permutation_in _ (Permutation_sym (edges_next _))). simpl. auto.
  - destruct l1 as [|u l1].
    + exists (last (v :: l2) v). split; [apply last_In; discriminate|]. left. reflexivity.
    + exists (last (u :: l1) u). split; [apply in_or_app; left; apply last_In; discriminate|].
      unfold edges. simpl app. cbv iota. change (u :: l1 ++ v :: l2) with ((u :: l1) ++ v :: l2).
      rewrite chain_app. apply in_or_app. right. left. f_equal. apply last_indep. discriminate.
Qed.

Lemma edges_In : forall (l : list pt2) e, In e (edges l) -> In (fst e) l /\ In (snd e) l.
Proof.
  intros [|a t] e H; [destruct H|]. unfold edges in H.
  assert (G : forall m x, In e (chain x m) -> (fst e = x \/ In (fst e) m) /\ In (snd e) m).
  { induction m as [|b m IH]; intros x Hx; [destruct Hx|].
    destruct Hx as [<-|Hx]; simpl; [auto|]. destruct (IH b Hx) as [[->|A] B]; auto. }
  destruct (G _ _ H) as [[A|A] B]; split; auto. rewrite A. apply last_In. discriminate.
Qed.

Lemma inside_strict_proof : forall eps l p, 0 < eps -> l <> [] ->
  (forall e, In e (edges l) -> eps <= orient (fst e) (snd e) p) ->
  is_inside_2d_polygon eps p l = 0%Z.
Proof.
  intros eps l p He Hn H. rewrite inside_eq.
  assert (T : forall e, In e (edges l) -> ccw3p eps (fst e) (snd e) p = 1%Z).
  { intros e Hi. rewrite ccw3p_tri. apply tri_pos; auto. }
  replace (existsb (on_bnd eps p) (edges l)) with false.
  2:{ symmetry. apply not_true_is_false. rewrite existsb_exists. intros [e [Hi Hb]].
      unfold on_bnd in Hb. rewrite (T e Hi) in Hb. discriminate. }
  set (q := fun v : pt2 => Rltb (Y p) (Y v)).
  assert (Cn : forall e, In e (edges l) ->
     wcontrib eps p e = if negb (q (fst e)) && q (snd e) then 1%Z else 0%Z).
  { intros e Hi. unfold wcontrib, q.
    assert (IL : is_left eps (fst e) (snd e) p = 1%Z).
    { rewrite is_left_tri by auto. rewrite <- ccw3p_tri. auto. }
    rewrite IL. simpl.
    destruct (Rleb (Y (fst e)) (Y p)) eqn:E1; destruct (Rltb (Y p) (Y (fst e))) eqn:E2; simpl;
      rewrite ?Rleb_true, ?Rleb_false, ?Rltb_true, ?Rltb_false in *; try lra; auto.
    destruct (Rleb _ _); auto. }
  assert (NN : forall m, (forall e, In e m -> In e (edges l)) ->
     (0 <= Zsum (map (wcontrib eps p) m))%Z /\
     (forall e, In e m -> wcontrib eps p e = 1%Z -> 0 < Zsum (map (wcontrib eps p) m))%Z).
  { induction m as [|e m IH]; intros Hs; [split; [simpl; lia|intros e []]|].
    destruct IH as [I1 I2]; [intros; apply Hs; simpl; auto|].
    assert (0 <= wcontrib eps p e)%Z.
    { rewrite (Cn e) by (apply Hs; simpl; auto). destruct (_ && _); lia. }
    cbn [map Zsum fold_right]. fold (Zsum (map (wcontrib eps p) m)).
    split; [lia|]. intros e' [<-|Hi] Hc; [lia|]. specialize (I2 e' Hi Hc). lia. }
  destruct (Z.eqb_spec (Zsum (map (wcontrib eps p) (edges l))) 0) as [Z0|]; [exfalso|reflexivity].
  assert (NU : forall e, In e (edges l) -> q (fst e) = false -> q (snd e) = false).
  { intros e Hi Hq. destruct (q (snd e)) eqn:Q; auto. exfalso.
    destruct (NN (edges l)) as [_ N2]; auto. specialize (N2 e Hi).
    rewrite (Cn e Hi), Hq, Q in N2. simpl in N2. specialize (N2 eq_refl). lia. }
  destruct (cyclic_constant q l NU) as [F|F].
  - (* all vertices at or below p *)
    assert (Below : forall v, In v l -> Y v - Y p <= 0).
    { intros v Hv. specialize (F v Hv). unfold q in F. rewrite Rltb_false in F. lra. }
    assert (Strict : forall v, In v l -> Y v - Y p < 0).
    { intros v Hv. destruct (edges_ex l v Hv) as [[w [Hw Ew]] [u [Hu Eu]]].
      pose proof (H _ Ew) as C1. pose proof (H _ Eu) as C2. simpl in C1, C2.
      rewrite orient_crs in C1, C2. unfold crs in C1, C2.
      pose proof (Below v Hv). pose proof (Below w Hw). pose proof (Below u Hu).
      destruct (Req_dec (Y v - Y p) 0) as [Z|Z]; [|lra]. rewrite Z in *. exfalso.
      assert (0 < X v - X p \/ X v - X p <= 0) by lra. nra. }
    apply (cyclic_no_increase (fun x y => 0 < crs p x y) (fun v => Y v - Y p < 0) l); auto.
    + intros x y z Px Py Pz. now apply crs_trans_down.
    + intros x Hx. unfold crs in Hx. lra.
    + intros e Hi. rewrite <- orient_crs. specialize (H e Hi). lra.
  - assert (Above : forall v, In v l -> 0 < Y v - Y p).
    { intros v Hv. specialize (F v Hv). unfold q in F. rewrite Rltb_true in F. lra. }
    apply (cyclic_no_increase (fun x y => 0 < crs p x y) (fun v => 0 < Y v - Y p) l); auto.
    + intros x y z Px Py Pz. now apply crs_trans_up.
    + intros x Hx. unfold crs in Hx. lra.
    + intros e Hi. rewrite <- orient_crs. specialize (H e Hi). lra.
Qed.

(** Telescoping of integer potentials around the polygon. *)
Lemma Zsum_chain_potential : forall (g : pt2 -> Z) l a,
  Zsum (map (fun e : pt2 * pt2 => g (snd e) - g (fst e))%Z (chain a l)) = (g (last l a) - g a)%Z.
Proof.
  induction l as [|b l IH]; intros a; [simpl; lia|]. cbn [chain map Zsum fold_right fst snd].
  fold (Zsum (map (fun e : pt2 * pt2 => g (snd e) - g (fst e))%Z (chain b l))). rewrite IH.
  rewrite last_cons. lia.
Qed.
Lemma Zsum_edges_potential : forall (g : pt2 -> Z) l,
  Zsum (map (fun e : pt2 * pt2 => g (snd e) - g (fst e))%Z (edges l)) = 0%Z.
Proof.
  intros g [|a t]; [reflexivity|]. unfold edges. rewrite Zsum_chain_potential.
  rewrite (last_indep (a :: t) (last (a :: t) a) a) by discriminate. lia.
Qed.

(** All vertices strictly on one side of a line through p, every edge decided: the
    winding number is 0. *)
Lemma halfplane_outside : forall eps l p nx ny, 0 < eps ->
  (forall v, In v l -> 0 < nx * (X v - X p) + ny * (Y v - Y p)) ->
  (forall e, In e (edges l) -> ccw3p eps (fst e) (snd e) p <> 0%Z) ->
  is_inside_2d_polygon eps p l = (-1)%Z.
Proof.
  intros eps l p nx ny He Hh Hd. rewrite inside_eq.
  replace (existsb (on_bnd eps p) (edges l)) with false.
  2:{ symmetry. apply not_true_is_false. rewrite existsb_exists. intros [e [Hi Hb]].
      unfold on_bnd in Hb. apply andb_prop in Hb. destruct Hb as [Hb _].
      apply Z.eqb_eq in Hb. now apply (Hd e). }
  assert (S : Zsum (map (wcontrib eps p) (edges l)) = 0%Z); [|rewrite S; reflexivity].
  assert (L : forall e, In e (edges l) ->
     is_left eps (fst e) (snd e) p = 1%Z /\ 0 < crs p (fst e) (snd e) \/
     is_left eps (fst e) (snd e) p = (-1)%Z /\ crs p (fst e) (snd e) < 0).
  { intros e Hi. rewrite is_left_tri by auto. rewrite <- (orient_crs (fst e) (snd e) p).
    specialize (Hd e Hi). rewrite ccw3p_tri in Hd.
    destruct (tri_cases eps (orient (fst e) (snd e) p)) as [E|[E|E]]; [left|right|contradiction];
      (split; [exact E|]); [apply tri_pos in E|apply tri_m1 in E]; lra. }
  destruct (Rle_lt_dec nx 0) as [N|N].
  - (* the ray to the right of p does not meet the half plane *)
    assert (Z : forall e, In e (edges l) -> wcontrib eps p e = 0%Z).
    { intros e Hi. unfold wcontrib. destruct (edges_In l e Hi) as [I1 I2].
      pose proof (Hh _ I1) as H1. pose proof (Hh _ I2) as H2.
      destruct (L e Hi) as [[E C]|[E C]]; rewrite E; simpl; unfold crs in C;
      destruct (Rleb (Y (fst e)) (Y p)) eqn:E1; destruct (Rltb (Y p) (Y (snd e))) eqn:E2;
      destruct (Rleb (Y (snd e)) (Y p)) eqn:E3; auto; exfalso;
      rewrite ?Rleb_true, ?Rleb_false, ?Rltb_true, ?Rltb_false in *; try lra;
      set (a := X (fst e) - X p) in *; set (b := Y (fst e) - Y p) in *;
      set (c := X (snd e) - X p) in *; set (d := Y (snd e) - Y p) in *;
      [assert (b <= 0 /\ 0 < d) by (subst b d; lra) | assert (0 < b /\ d <= 0) by (subst b d; lra)].
      - (* d*(n.u) - b*(n.w) = nx*(a d - c b) *)
        assert (d * (nx * a + ny * b) - b * (nx * c + ny * d) = nx * (a * d - c * b)) by ring. nra.
      - assert (d * (nx * a + ny * b) - b * (nx * c + ny * d) = nx * (a * d - c * b)) by ring. nra. }
    assert (G : forall m, (forall e, In e m -> In e (edges l)) -> Zsum (map (wcontrib eps p) m) = 0%Z).
    { induction m as [|e m IH]; intros Hs; [reflexivity|]. cbn [map Zsum fold_right].
      fold (Zsum (map (wcontrib eps p) m)). rewrite Z by (apply Hs; simpl; auto).
      rewrite IH; auto. intros; apply Hs; simpl; auto. }
    apply G. auto.
  - set (g := fun v : pt2 => if Rltb (Y p) (Y v) then 1%Z else 0%Z).
    rewrite <- (Zsum_edges_potential g l). f_equal. apply map_ext_in. intros e Hi.
    unfold wcontrib, g. destruct (edges_In l e Hi) as [I1 I2].
    pose proof (Hh _ I1) as H1. pose proof (Hh _ I2) as H2.
    destruct (L e Hi) as [[E C]|[E C]]; rewrite E; simpl; unfold crs in C;
    destruct (Rleb (Y (fst e)) (Y p)) eqn:E1; destruct (Rltb (Y p) (Y (snd e))) eqn:E2;
    destruct (Rleb (Y (snd e)) (Y p)) eqn:E3; destruct (Rltb (Y p) (Y (fst e))) eqn:E4; auto; exfalso;
    rewrite ?Rleb_true, ?Rleb_false, ?Rltb_true, ?Rltb_false in *; try lra;
    set (a := X (fst e) - X p) in *; set (b := Y (fst e) - Y p) in *;
    set (c := X (snd e) - X p) in *; set (d := Y (snd e) - Y p) in *;
    [assert (0 < b /\ d <= 0) by (subst b d; lra) | assert (b <= 0 /\ 0 < d) by (subst b d; lra)];
    assert (d * (nx * a + ny * b) - b * (nx * c + ny * d) = nx * (a * d - c * b)) by ring; nra.
Qed.

Lemma convex_decided_proof : forall eps l p, 0 < eps -> l <> [] -> convex_ccw l ->
  (forall e, In e (edges l) -> eps <= Rabs (orient (fst e) (snd e) p)) ->
  ((forall e, In e (edges l) -> 0 < orient (fst e) (snd e) p) -> is_inside_2d_polygon eps p l = 0%Z) /\
  ((exists e, In e (edges l) /\ orient (fst e) (snd e) p < 0) -> is_inside_2d_polygon eps p l = (-1)%Z).
Proof.
  intros eps l p He Hn Hc Hd. split.
  - intros H. apply inside_strict_proof; auto. intros e Hi. specialize (Hd e Hi). specialize (H e Hi).
    rewrite Rabs_right in Hd; lra.
  - intros [e [Hi Ho]].
    apply (halfplane_outside eps l p (- (Y (snd e) - Y (fst e))) (X (snd e) - X (fst e))); auto.
    + intros v Hv. specialize (Hc e v Hi Hv). unfold orient, X, Y in *. lra.
    + intros e' Hi'. specialize (Hd e' Hi'). rewrite ccw3p_tri. intros Z. apply tri_0 in Z; auto.
      unfold Rabs in Hd. destruct (Rcase_abs _); lra.
Qed.
