(** Theoretical reverberation times of rooms (C105). *)
From Coq Require Import List ZArith Lia Reals Lra Psatz Bool.
From Verif Require Import Base BaseProofs Vec GeometryModel WallModel ReverbModel ReverbProps TheoryModel.
Import ListNotations.
Local Open Scope R_scope.

(** Total surface, and the absorption of band b averaged over it. *)
Definition surface (D : nat) (walls : list wall) : R := Rsum (map (wall_area D) walls).
Definition mean_abs (D : nat) (walls : list wall) (b : nat) : R :=
  Rsum (map (fun w => wall_area D w * nth b (w_abs w) 0) walls) / surface D walls.
(** The air absorption of band b. *)
Definition air_of (air : option (list R)) (b : nat) : R := match air with None => 0 | Some l => nth b l 0 end.
(** Walls with an area, air and walls with coefficients for every band. *)
Definition room_ok (D : nat) (walls : list wall) (air : option (list R)) (n : nat) : Prop :=
  walls <> [] /\ (forall w, In w walls -> 0 < wall_area D w /\ (n <= length (w_abs w))%nat /\ forall b, (b < n)%nat -> 0 <= nth b (w_abs w) 0 < 1) /\
  match air with None => True | Some l => (n <= length l)%nat /\ forall b, (b < n)%nat -> 0 <= nth b l 0 end.
(** The bands that count: the octave bands if some wall has several coefficients. *)
Definition bands (walls : list wall) (octave_bw : list R) : list R :=
  if is_multi_band walls then octave_bw else [1].

Lemma Rsum_cons : forall a l, Rsum (a :: l) = a + Rsum l. Proof. reflexivity. Qed.
Lemma Rsum_nil : Rsum [] = 0. Proof. reflexivity. Qed.
Ltac rs := rewrite ?Rsum_cons, ?Rsum_nil.
Lemma ln10_pos' : 0 < ln 10. Proof. exact ln10_pos. Qed.
Lemma surface_pos : forall D walls air n, room_ok D walls air n -> 0 < surface D walls.
Proof.
  intros D walls air n [Hn [Hw _]]. unfold surface. destruct walls as [|w walls]; [congruence|]. cbn [map]; rs.
  assert (0 <= Rsum (map (wall_area D) walls)).
  { assert (G : forall w, In w walls -> 0 < wall_area D w) by (intros w0 H0; apply (Hw w0); now right). clear - G.
    induction walls as [|x l IH]; cbn [map]; rs; [lra|]. specialize (IH (fun w H => G w (or_intror H))). specialize (G x (or_introl eq_refl)). lra. }
  specialize (Hw w (or_introl eq_refl)). lra.
Qed.
Lemma foldM_sum : forall {A} (g : A -> option R) (h : A -> R) l acc, (forall x, In x l -> g x = Some (h x)) ->
  foldM (fun inv x => let* a := g x in Some (inv + a)) l acc = Some (acc + Rsum (map h l)).
Proof.
  intros A g h. induction l as [|x l IH]; intros acc H; cbn [foldM map]; rs; [f_equal; ring|].
  rewrite (H x) by now left. cbn [bind]. rewrite IH by (intros; apply H; now right). f_equal. ring.
Qed.
(** the sum over bands of the sum over walls *)
Lemma theory_sum : forall D f walls obw V c air, room_ok D walls air (length (bands walls obw)) ->
  rt60_theory D f walls obw V c air =
  let inv := Rsum (map (fun b => Rsum (map (fun w => wall_term f (nth b (bands walls obw) 0) (wall_area D w) V (nth b (w_abs w) 0) (air_of air b) c) walls)) (seq 0 (length (bands walls obw)))) in
  if Req_EM_T inv 0 then None else Some (Rsum (bands walls obw) / inv).
Proof.
  intros D f walls obw V c air [_ [Hw Ha]]. unfold rt60_theory. change (if is_multi_band walls then obw else [1]) with (bands walls obw).
  set (bs := bands walls obw) in *. cbv zeta. clearbody bs.
  assert (G : forall k l acc, (forall j, (j < length l)%nat -> nth j l 0 = nth (k + j) bs 0) -> (k + length l = length bs)%nat ->
     foldM (band_step D f walls V c air) (combine (seq k (length l)) l) acc =
     Some (acc + Rsum (map (fun b => Rsum (map (fun w => wall_term f (nth b bs 0) (wall_area D w) V (nth b (w_abs w) 0) (air_of air b) c) walls)) (seq k (length l))))).
  { intros k l. revert k. induction l as [|x l IH]; intros k acc Hl Hk; cbn [length seq combine foldM map]; rs; [f_equal; ring|].
    cbn [length] in Hk. assert (Hx : x = nth k bs 0) by (specialize (Hl 0%nat ltac:(cbn; lia)); cbn in Hl; now rewrite Nat.add_0_r in Hl).
    assert (E : band_step D f walls V c air acc (k, x) = Some (acc + Rsum (map (fun w => wall_term f (nth k bs 0) (wall_area D w) V (nth k (w_abs w) 0) (air_of air k) c) walls))).
    { unfold band_step. assert (Em : match air with None => Some 0 | Some l0 => nth_error l0 k end = Some (air_of air k)).
      { destruct air as [la|]; cbn [air_of]; [|reflexivity]. apply nth_error_nth'. lia. }
      rewrite Em. cbn [bind]. rewrite <- Hx. clear - Hw Hk. revert acc. 
      assert (Hw' : forall w, In w walls -> nth_error (w_abs w) k = Some (nth k (w_abs w) 0)) by (intros w Hi; apply nth_error_nth'; destruct (Hw w Hi) as [_ [L _]]; lia).
      clear Hw Hk. induction walls as [|w ws IHw]; intros acc; cbn [foldM map]; rs; [f_equal; ring|]. rewrite (Hw' w) by now left. cbn [bind].
      rewrite IHw by (intros; apply Hw'; now right). f_equal. ring. }
    rewrite E. cbn [bind]. rewrite IH; [f_equal; ring| |lia]. intros j Hj. specialize (Hl (S j) ltac:(cbn; lia)). cbn [nth] in Hl. rewrite Hl. f_equal. lia. }
  rewrite (G 0%nat bs 0) by (intros; reflexivity || lia). cbn [bind]. now rewrite Rplus_0_l.
Qed.
Lemma term_sabine : forall bw Sf V a m c, 0 < V -> 0 < c -> wall_term Sabine bw Sf V a m c = bw * (a * Sf + 4 * m * V) * (c / (24 * ln 10 * V)).
Proof.
  intros bw Sf V a m c HV Hc. pose proof ln10_pos. unfold wall_term. destruct (Req_EM_T _ 0) as [->|N]; [ring|]. unfold rt60_sabine. field. repeat split; lra.
Qed.
Lemma term_eyring : forall bw Sf V a c, 0 < V -> 0 < c -> wall_term Eyring bw Sf V a 0 c = bw * (- Sf * ln (1 - a)) * (c / (24 * ln 10 * V)).
Proof.
  intros bw Sf V a c HV Hc. pose proof ln10_pos. unfold wall_term. destruct (Req_EM_T _ 0) as [E|N].
  - assert (Sf * ln (1 - a) = 0) by lra. replace (- Sf * ln (1 - a)) with 0 by lra. ring.
  - unfold rt60_eyring. assert (Sf * ln (1 - a) <> 0) by lra. assert (Sf <> 0 /\ ln (1 - a) <> 0) as [? ?] by (split; intros Z; rewrite Z in *; apply N; lra).
    replace (Sf * ln (1 - a) + 4 * 0 * V) with (Sf * ln (1 - a)) by ring. field. repeat split; lra.
Qed.
Lemma sum_const : forall {A} (x : R) (l : list A), Rsum (map (fun _ => x) l) = INR (length l) * x.
Proof. intros A x. induction l as [|a l IH]; [cbn; ring|]. cbn [map length]; rs. rewrite IH, S_INR. ring. Qed.
Lemma sum_pos : forall {A} (f : A -> R) l, l <> [] -> (forall x, In x l -> 0 < f x) -> 0 < Rsum (map f l).
Proof.
  intros A f. induction l as [|a l IH]; intros Hn H; [congruence|]. cbn [map]; rs. pose proof (H a (or_introl eq_refl)).
  destruct l as [|b l]; [cbn; lra|]. assert (0 < Rsum (map f (b :: l))) by (apply IH; [discriminate|intros; apply H; now right]). lra.
Qed.

(** C105.  Sabine: the time is the mean of Sabine's times of the bands, harmonic and weighted by the
    bandwidths, for the absorption averaged over the surface, and the absorption of the air times the
    number of walls (so exactly Sabine's formula without air absorption). *)
Theorem C105_sabine : forall D walls obw V c air, 0 < V -> 0 < c -> let bw := bands walls obw in
  room_ok D walls air (length bw) -> bw <> [] -> (forall b, (b < length bw)%nat -> 0 < nth b bw 0 /\ 0 < mean_abs D walls b) ->
  exists T, rt60_theory D Sabine walls obw V c air = Some T /\ 0 < T /\
  Rsum bw / T = Rsum (map (fun b => nth b bw 0 / rt60_sabine (surface D walls) V (mean_abs D walls b) (INR (length walls) * air_of air b) c) (seq 0 (length bw))).
Proof.
  intros D walls obw V c air HV Hc bw Hok Hn Hb. rewrite theory_sum by exact Hok. fold bw. cbv zeta.
  pose proof (surface_pos _ _ _ _ Hok) as HS. pose proof ln10_pos as Hl.
  set (inv := Rsum (map _ (seq 0 (length bw)))).
  assert (E : inv = Rsum (map (fun b => nth b bw 0 / rt60_sabine (surface D walls) V (mean_abs D walls b) (INR (length walls) * air_of air b) c) (seq 0 (length bw)))).
  { unfold inv. apply Rsum_map_ext. intros b Hi. apply in_seq in Hi. destruct (Hb b ltac:(lia)) as [Hw Hm].
    rewrite (Rsum_map_ext _ (fun w => (nth b bw 0 * (c / (24 * ln 10 * V))) * (wall_area D w * nth b (w_abs w) 0 + 4 * air_of air b * V))) by (intros w _; rewrite term_sabine by assumption; ring).
    rewrite Rsum_map_scal, Rsum_map_plus, sum_const. unfold rt60_sabine. unfold mean_abs in *. set (A := Rsum (map (fun w => wall_area D w * nth b (w_abs w) 0) walls)) in *.
    assert (HA : 0 < A) by (apply (Rmult_lt_compat_r _ _ _ HS) in Hm; unfold Rdiv in Hm; rewrite Rmult_assoc, Rinv_l, Rmult_1_r, Rmult_0_l in Hm; lra).
    assert (0 <= INR (length walls)) by apply pos_INR.
    assert (0 <= air_of air b) by (destruct Hok as [_ [_ Ha]]; destruct air as [la|]; cbn [air_of]; [apply Ha; lia|lra]).
    assert (0 <= INR (length walls) * air_of air b * V) by (apply Rmult_le_pos; [apply Rmult_le_pos; lra|lra]).
    replace (A / surface D walls * surface D walls) with A by (field; lra). field. repeat split; lra. }
  assert (P : 0 < inv).
  { rewrite E. apply sum_pos; [destruct bw; [congruence|discriminate]|]. intros b Hi. apply in_seq in Hi. destruct (Hb b ltac:(lia)) as [Hw Hm].
    apply Rdiv_lt_0_compat; [exact Hw|]. unfold rt60_sabine.
    assert (0 <= INR (length walls)) by apply pos_INR.
    assert (0 <= air_of air b) by (destruct Hok as [_ [_ Ha]]; destruct air as [la|]; cbn [air_of]; [apply Ha; lia|lra]).
    assert (0 <= INR (length walls) * air_of air b * V) by (apply Rmult_le_pos; [apply Rmult_le_pos; lra|lra]).
    assert (0 < mean_abs D walls b * surface D walls) by (apply Rmult_lt_0_compat; lra).
    apply Rdiv_lt_0_compat; [|lra]. apply Rmult_lt_0_compat; [|lra]. apply Rdiv_lt_0_compat; lra. }
  assert (Q : 0 < Rsum bw).
  { rewrite <- (map_id bw). apply sum_pos; [exact Hn|]. intros x Hx. destruct (In_nth _ _ 0 Hx) as [b [H1 <-]]. now apply Hb. }
  destruct (Req_EM_T inv 0); [lra|]. exists (Rsum bw / inv). split; [reflexivity|]. split; [now apply Rdiv_lt_0_compat|]. rewrite <- E. field. split; lra.
Qed.
(** With one coefficient per wall, and no air absorption, it is Sabine's formula itself. *)
Theorem C105_sabine_one : forall D walls obw V c, 0 < V -> 0 < c -> (forall w, In w walls -> length (w_abs w) = 1%nat) ->
  room_ok D walls None 1 -> 0 < mean_abs D walls 0 ->
  rt60_theory D Sabine walls obw V c None = Some (rt60_sabine (surface D walls) V (mean_abs D walls 0) 0 c).
Proof.
  intros D walls obw V c HV Hc H1 Hok Hm.
  assert (B : bands walls obw = [1]).
  { unfold bands, is_multi_band. assert (G : fold_left (fun b w => if Nat.ltb 1 (length (w_abs w)) then true else b) walls false = false).
    { clear - H1. induction walls as [|w ws IH]; [reflexivity|]. cbn [fold_left]. rewrite (H1 w) by now left. cbn [Nat.ltb Nat.leb]. apply IH. intros; apply H1; now right. }
    now rewrite G. }
  destruct (C105_sabine D walls obw V c None HV Hc) as [T [E [P Q]]]; rewrite ?B in *; cbn [length] in *.
  - exact Hok.
  - discriminate.
  - intros [|b] Hb; [cbn; split; lra|lia].
  - rewrite E. f_equal. cbn [map seq nth air_of] in Q. rewrite ?Rsum_cons, ?Rsum_nil in Q. rewrite Rmult_0_r in Q.
    assert (Hs : 0 < surface D walls) by (eapply surface_pos; exact Hok). pose proof ln10_pos as Hl.
    set (s := rt60_sabine (surface D walls) V (mean_abs D walls 0) 0 c) in *.
    assert (Hp : 0 < s). { unfold s, rt60_sabine. assert (0 < mean_abs D walls 0 * surface D walls) by (apply Rmult_lt_0_compat; lra). apply Rdiv_lt_0_compat; [|lra]. apply Rmult_lt_0_compat; [|lra]. apply Rdiv_lt_0_compat; lra. }
    apply (f_equal (fun x => x * (T * s))) in Q. field_simplify in Q; lra.
Qed.
(** The mean over bands lies between the shortest and the longest of Sabine's times. *)
Lemma sum_le : forall {A} (f g : A -> R) l, (forall x, In x l -> f x <= g x) -> Rsum (map f l) <= Rsum (map g l).
Proof. intros A f g. induction l as [|a l IH]; intros H; cbn [map]; rs; [lra|]. pose proof (H a (or_introl eq_refl)). pose proof (IH (fun x Hx => H x (or_intror Hx))). lra. Qed.
Lemma sum_nth : forall l, Rsum l = Rsum (map (fun b => nth b l 0) (seq 0 (length l))).
Proof. intros l. f_equal. apply (nth_ext _ _ 0 0); [now rewrite map_length, seq_length|]. intros n Hn. rewrite (nth_map_seq (fun b => nth b l 0)) by lia. reflexivity. Qed.
Theorem C105_between : forall D walls obw V c air lo hi T, 0 < V -> 0 < c -> let bw := bands walls obw in
  room_ok D walls air (length bw) -> bw <> [] -> (forall b, (b < length bw)%nat -> 0 < nth b bw 0 /\ 0 < mean_abs D walls b) ->
  0 < lo -> (forall b, (b < length bw)%nat -> lo <= rt60_sabine (surface D walls) V (mean_abs D walls b) (INR (length walls) * air_of air b) c <= hi) ->
  rt60_theory D Sabine walls obw V c air = Some T -> lo <= T <= hi.
Proof.
  intros D walls obw V c air lo hi T HV Hc bw Hok Hn Hb Hlo H HT.
  destruct (C105_sabine D walls obw V c air HV Hc Hok Hn Hb) as [T' [E [P Q]]]. rewrite HT in E. injection E as <-. fold bw in Q.
  assert (Hbw : 0 < Rsum bw). { rewrite <- (map_id bw). apply sum_pos; [exact Hn|]. intros x Hx. destruct (In_nth _ _ 0 Hx) as [b [H1 <-]]. now apply Hb. }
  assert (Hhi : 0 < hi). { destruct bw as [|x l]; [congruence|]. specialize (H 0%nat ltac:(cbn; lia)). lra. }
  assert (L : Rsum bw / hi <= Rsum bw / T <= Rsum bw / lo).
  { rewrite Q. rewrite (sum_nth bw).
    assert (Sc : forall x, Rsum (map (fun b => nth b bw 0) (seq 0 (length bw))) / x = Rsum (map (fun b => / x * nth b bw 0) (seq 0 (length bw)))) by (intros x; rewrite Rsum_map_scal; unfold Rdiv; ring).
    rewrite !Sc.
    split; apply sum_le; intros b Hi; apply in_seq in Hi; destruct (Hb b ltac:(lia)) as [H1 _]; specialize (H b ltac:(lia)); rewrite (Rmult_comm (/ _)); unfold Rdiv; apply Rmult_le_compat_l; try lra; apply Rinv_le_contravar; lra. }
  destruct L as [L1 L2]. split.
  - apply Rnot_lt_le. intros N. apply (Rinv_0_lt_contravar) in N || idtac. assert (/ lo < / T) by (apply Rinv_lt_contravar; [now apply Rmult_lt_0_compat|lra]). unfold Rdiv in *. nra.
  - apply Rnot_lt_le. intros N. assert (/ T < / hi) by (apply Rinv_lt_contravar; [apply Rmult_lt_0_compat; lra|lra]). unfold Rdiv in *. nra.
Qed.

(** C105.  Eyring without air absorption: every wall's absorption exponent counts separately.  With the
    same absorption on every wall it is Eyring's formula; *)
Lemma eyring_one : forall D walls obw V c, 0 < V -> 0 < c -> (forall w, In w walls -> length (w_abs w) = 1%nat) -> room_ok D walls None 1 ->
  let inv := Rsum (map (fun w => - wall_area D w * ln (1 - nth 0 (w_abs w) 0)) walls) * (c / (24 * ln 10 * V)) in
  rt60_theory D Eyring walls obw V c None = if Req_EM_T inv 0 then None else Some (1 / inv).
Proof.
  intros D walls obw V c HV Hc H1 Hok.
  assert (B : bands walls obw = [1]).
  { unfold bands, is_multi_band. assert (G : fold_left (fun b w => if Nat.ltb 1 (length (w_abs w)) then true else b) walls false = false).
    { clear - H1. induction walls as [|w ws IH]; [reflexivity|]. cbn [fold_left]. rewrite (H1 w) by now left. cbn [Nat.ltb Nat.leb]. apply IH. intros; apply H1; now right. }
    now rewrite G. }
  rewrite theory_sum by (now rewrite B). rewrite B. cbv zeta. cbn [length seq map nth air_of]; rs.
  rewrite (Rsum_map_ext _ (fun w => (c / (24 * ln 10 * V)) * (- wall_area D w * ln (1 - nth 0 (w_abs w) 0)))) by (intros w _; rewrite term_eyring by assumption; ring).
  rewrite Rsum_map_scal, !Rplus_0_r, (Rmult_comm (c / _)). reflexivity.
Qed.
Theorem C105_eyring_uniform : forall D walls obw V c a, 0 < V -> 0 < c -> 0 < a < 1 -> (forall w, In w walls -> w_abs w = [a]) -> room_ok D walls None 1 ->
  rt60_theory D Eyring walls obw V c None = Some (rt60_eyring (surface D walls) V a 0 c).
Proof.
  intros D walls obw V c a HV Hc Ha Hw Hok. rewrite eyring_one; auto; [|intros w Hi; now rewrite (Hw w Hi)]. cbv zeta.
  rewrite (Rsum_map_ext _ (fun w => - ln (1 - a) * wall_area D w)) by (intros w Hi; rewrite (Hw w Hi); cbn [nth]; ring).
  rewrite Rsum_map_scal. fold (surface D walls). pose proof (surface_pos _ _ _ _ Hok) as HS. pose proof ln10_pos as Hl.
  pose proof (ln_1_minus a Ha) as Hn. assert (HL : ln (1 - a) < 0) by lra.
  assert (P : 0 < - ln (1 - a) * surface D walls * (c / (24 * ln 10 * V))).
  { apply Rmult_lt_0_compat; [apply Rmult_lt_0_compat; lra|]. apply Rdiv_lt_0_compat; [lra|]. apply Rmult_lt_0_compat; lra. }
  destruct (Req_EM_T _ 0) as [E|_]; [lra|]. f_equal. unfold rt60_eyring. field. repeat split; lra.
Qed.
(** in general it is never longer than Eyring's formula for the average absorption. *)
Lemma ln_tangent : forall x y, 0 < x -> 0 < y -> ln x <= ln y + (x - y) / y.
Proof.
  intros x y Hx Hy. replace (ln x) with (ln y + ln (x / y)) by (unfold Rdiv; rewrite ln_mult, ln_Rinv; [ring|exact Hy|exact Hx|now apply Rinv_0_lt_compat]). apply Rplus_le_compat_l.
  assert (G : forall t, 0 < t -> ln t <= t - 1). { intros t Ht. pose proof (exp_ineq1_le (ln t)) as E. rewrite exp_ln in E by exact Ht. lra. }
  replace ((x - y) / y) with (x / y - 1) by (field; lra). apply G. now apply Rdiv_lt_0_compat.
Qed.
Theorem C105_eyring : forall D walls obw V c, 0 < V -> 0 < c -> (forall w, In w walls -> length (w_abs w) = 1%nat) -> room_ok D walls None 1 -> 0 < mean_abs D walls 0 ->
  exists T, rt60_theory D Eyring walls obw V c None = Some T /\ 0 < T <= rt60_eyring (surface D walls) V (mean_abs D walls 0) 0 c.
Proof.
  intros D walls obw V c HV Hc H1 Hok Hm. rewrite eyring_one by assumption. cbv zeta.
  pose proof (surface_pos _ _ _ _ Hok) as HS. pose proof ln10_pos as Hl. set (a := mean_abs D walls 0) in *.
  assert (Ea : Rsum (map (fun w => wall_area D w * nth 0 (w_abs w) 0) walls) = a * surface D walls) by (unfold a, mean_abs; field; lra).
  destruct Hok as [Hn [Hw _]].
  assert (Ha : a < 1).
  { assert (L : 0 < Rsum (map (fun w => wall_area D w * (1 - nth 0 (w_abs w) 0)) walls)).
    { apply sum_pos; [exact Hn|]. intros w Hi. destruct (Hw w Hi) as [A [_ B]]. specialize (B 0%nat ltac:(lia)). apply Rmult_lt_0_compat; lra. }
    rewrite (Rsum_map_ext _ (fun w => wall_area D w + (-1) * (wall_area D w * nth 0 (w_abs w) 0))) in L by (intros; ring).
    rewrite Rsum_map_plus, Rsum_map_scal, Ea in L. fold (surface D walls) in L. nra. }
  set (Q := Rsum (map (fun w => - wall_area D w * ln (1 - nth 0 (w_abs w) 0)) walls)).
  assert (HQ : - ln (1 - a) * surface D walls <= Q).
  { assert (G : - Q <= ln (1 - a) * surface D walls).
    { unfold Q. replace (- Rsum (map (fun w => - wall_area D w * ln (1 - nth 0 (w_abs w) 0)) walls)) with (Rsum (map (fun w => -1 * (- wall_area D w * ln (1 - nth 0 (w_abs w) 0))) walls)) by (rewrite Rsum_map_scal; ring).
      apply Rle_trans with (Rsum (map (fun w => wall_area D w * (ln (1 - a) + (a - nth 0 (w_abs w) 0) / (1 - a))) walls)).
      - apply sum_le. intros w Hi. destruct (Hw w Hi) as [A [_ B]]. specialize (B 0%nat ltac:(lia)).
        replace (-1 * (- wall_area D w * ln (1 - nth 0 (w_abs w) 0))) with (wall_area D w * ln (1 - nth 0 (w_abs w) 0)) by ring. apply Rmult_le_compat_l; [lra|].
        replace (a - nth 0 (w_abs w) 0) with ((1 - nth 0 (w_abs w) 0) - (1 - a)) by ring. apply ln_tangent; lra.
      - rewrite (Rsum_map_ext _ (fun w => (ln (1 - a) + a / (1 - a)) * wall_area D w + (- / (1 - a)) * (wall_area D w * nth 0 (w_abs w) 0))) by (intros; field; lra).
        rewrite Rsum_map_plus, !Rsum_map_scal, Ea. fold (surface D walls). right. field. lra. }
    lra. }
  pose proof (ln_1_minus a ltac:(lra)) as Hln. assert (HL : ln (1 - a) < 0) by lra.
  set (K := c / (24 * ln 10 * V)). assert (HK : 0 < K) by (apply Rdiv_lt_0_compat; [lra|]; apply Rmult_lt_0_compat; lra).
  assert (HP : 0 < - ln (1 - a) * surface D walls) by (apply Rmult_lt_0_compat; lra).
  assert (HQK : 0 < Q * K) by (apply Rmult_lt_0_compat; lra).
  destruct (Req_EM_T (Q * K) 0); [lra|]. eexists. split; [reflexivity|]. split; [apply Rdiv_lt_0_compat; lra|].
  replace (rt60_eyring (surface D walls) V a 0 c) with (1 / ((- ln (1 - a) * surface D walls) * K)) by (unfold rt60_eyring, K; field; repeat split; lra).
  unfold Rdiv. rewrite !Rmult_1_l. apply Rinv_le_contravar; [apply Rmult_lt_0_compat; lra|]. apply Rmult_le_compat_r; lra.
Qed.

(** ** Findings and examples: a cube of one cubic metre *)
Definition face (a : R) : wall := {| w_corners := []; w_origin := []; w_normal := []; w_basis := ([], []);
  w_flat := [(0, 0); (1, 0); (1, 1); (0, 1)]; w_abs := [a]; w_scat := [0] |}.
Definition cube (a b : R) : list wall := [face a; face b; face b; face b; face b; face b].
Lemma face_area : forall a, wall_area 3 (face a) = 1.
Proof. intros a. unfold wall_area, area_2d_polygon. cbn. lra. Qed.
Lemma cube_ok : forall a b air, 0 <= a < 1 -> 0 <= b < 1 -> match air with None => True | Some l => (1 <= length l)%nat /\ forall i, (i < 1)%nat -> 0 <= nth i l 0 end -> room_ok 3 (cube a b) air 1.
Proof.
  intros a b air Ha Hb Hair. split; [discriminate|]. split; [|exact Hair].
  intros w Hw. assert (exists x, 0 <= x < 1 /\ w = face x) as [x [Hx ->]] by (cbn [cube In] in Hw; destruct Hw as [<-|[<-|[<-|[<-|[<-|[<-|[]]]]]]]; eauto).
  rewrite face_area. split; [lra|]. split; [cbn; lia|]. intros [|i] Hi; [cbn; lra|lia].
Qed.
Lemma cube_surface : forall a b, surface 3 (cube a b) = 6.
Proof. intros. unfold surface, cube. cbn [map]. rs. rewrite !face_area. ring. Qed.
Lemma cube_mean : forall a b, mean_abs 3 (cube a b) 0 = (a + 5 * b) / 6.
Proof. intros. unfold mean_abs. rewrite cube_surface. unfold cube. cbn [map]. rs. rewrite !face_area. cbn [face w_abs nth]. field. Qed.
Lemma cube_bands : forall a b obw, bands (cube a b) obw = [1]. Proof. reflexivity. Qed.

(** The absorption of the air is counted once per wall: here the time is a third of Sabine's. *)
Theorem C105_air_refuted : exists walls V c m T, room_ok 3 walls (Some [m]) 1 /\ 0 < mean_abs 3 walls 0 /\
  rt60_theory 3 Sabine walls [] V c (Some [m]) = Some T /\ 3 * T = rt60_sabine (surface 3 walls) V (mean_abs 3 walls 0) m c.
Proof.
  exists (cube (1 / 10) (1 / 10)), 1, 1, (1 / 10). pose proof ln10_pos as Hl.
  assert (Ok : room_ok 3 (cube (1 / 10) (1 / 10)) (Some [1 / 10]) 1) by (apply cube_ok; [lra|lra|split; [cbn; lia|intros [|i] Hi; [cbn; lra|lia]]]).
  destruct (C105_sabine 3 (cube (1 / 10) (1 / 10)) [] 1 1 (Some [1 / 10]) ltac:(lra) ltac:(lra) Ok ltac:(discriminate)) as [T [E [P Q]]].
  { intros [|b] Hb; [|cbn in Hb; lia]. rewrite cube_mean. cbn. split; lra. }
  exists T. split; [exact Ok|]. split; [rewrite cube_mean; lra|]. split; [exact E|].
  rewrite cube_bands in Q. cbn [length seq map nth air_of] in Q. rewrite ?Rsum_cons, ?Rsum_nil in Q. rewrite cube_mean, cube_surface in *. unfold rt60_sabine in *.
  replace (INR (length (cube (1 / 10) (1 / 10)))) with 6 in Q by (cbn; ring).
  apply (f_equal (fun x => x * (T * (24 * ln 10)))) in Q. field_simplify in Q; [|lra|lra]. field_simplify. lra.
Qed.
(** With unequal walls the time differs from Eyring's formula. *)
Theorem C105_eyring_refuted : exists walls V c T, room_ok 3 walls None 1 /\ 0 < mean_abs 3 walls 0 /\
  rt60_theory 3 Eyring walls [] V c None = Some T /\ T < rt60_eyring (surface 3 walls) V (mean_abs 3 walls 0) 0 c.
Proof.
  exists (cube (3 / 4) 0), 1, 1, (1 / (ln 4 / (24 * ln 10))). pose proof ln10_pos as Hl.
  assert (Ok : room_ok 3 (cube (3 / 4) 0) None 1) by (apply cube_ok; [lra|lra|exact I]).
  split; [exact Ok|]. split; [rewrite cube_mean; lra|]. rewrite eyring_one; [|lra|lra|intros w Hw; cbn [cube In] in Hw; destruct Hw as [<-|[<-|[<-|[<-|[<-|[<-|[]]]]]]]; reflexivity|exact Ok].
  cbv zeta. rewrite cube_mean, cube_surface. unfold cube. cbn [map]. rs. rewrite !face_area. cbn [face w_abs nth].
  replace (1 - 0) with 1 by ring. rewrite ln_1. replace (1 - 3 / 4) with (/ 4) by field. rewrite ln_Rinv by lra.
  assert (H4 : 0 < ln 4) by (rewrite <- ln_1; apply ln_increasing; lra).
  match goal with |- context [Req_EM_T ?i 0] => set (inv := i) end. assert (Ei : inv = ln 4 / (24 * ln 10)) by (unfold inv; field; lra).
  assert (Hi : 0 < inv) by (rewrite Ei; apply Rdiv_lt_0_compat; lra).
  destruct (Req_EM_T inv 0); [lra|]. split; [now rewrite Ei|]. unfold rt60_eyring.
  replace (1 - (3 / 4 + 5 * 0) / 6) with (/ (8 / 7)) by field. rewrite ln_Rinv by lra.
  assert (H8 : 0 < ln (8 / 7)) by (rewrite <- ln_1; apply ln_increasing; lra).
  assert (C : 6 * ln (8 / 7) < ln 4).
  { replace (6 * ln (8 / 7)) with (ln ((8 / 7) ^ 6)) by (rewrite ln_pow by lra; cbn; ring). apply ln_increasing; [apply pow_lt; lra|]. cbn. lra. }
  replace (1 / (ln 4 / (24 * ln 10))) with (24 * ln 10 * / ln 4) by (field; lra).
  replace (- (24 * ln 10 / 1) * 1 / (6 * - ln (8 / 7) + 4 * 0 * 1)) with (24 * ln 10 * / (6 * ln (8 / 7))) by (field; lra).
  apply Rmult_lt_compat_l; [lra|]. apply Rinv_lt_contravar; [apply Rmult_lt_0_compat; lra|exact C].
Qed.
(** With hard walls and air absorption, Eyring's time is negative. *)
Theorem C105_eyring_air_refuted : exists walls V c m T, room_ok 3 walls (Some [m]) 1 /\ 0 < m /\
  rt60_theory 3 Eyring walls [] V c (Some [m]) = Some T /\ T < 0.
Proof.
  exists (cube 0 0), 1, 1, (1 / 10), (- (10 * ln 10)). pose proof ln10_pos as Hl.
  assert (Ok : room_ok 3 (cube 0 0) (Some [1 / 10]) 1) by (apply cube_ok; [lra|lra|split; [cbn; lia|intros [|i] Hi; [cbn; lra|lia]]]).
  split; [exact Ok|]. split; [lra|]. rewrite theory_sum by exact Ok. cbv zeta. rewrite cube_bands. unfold cube. cbn [length seq map]. rs. rewrite !face_area. cbn [face w_abs nth air_of].
  unfold wall_term, rt60_eyring. replace (1 - 0) with 1 by ring. rewrite ln_1.
  destruct (Req_EM_T (1 * 0 + 4 * (1 / 10) * 1) 0); [lra|].
  match goal with |- context [Req_EM_T ?i 0] => set (inv := i) end. assert (Ei : inv = - (1 / (10 * ln 10))) by (unfold inv; field; lra).
  assert (0 < 1 / (10 * ln 10)) by (apply Rdiv_lt_0_compat; lra).
  destruct (Req_EM_T inv 0); [lra|]. split; [rewrite Ei; f_equal; field; lra|lra].
Qed.
(** A room with two kinds of walls. *)
Example C105_ex : rt60_theory 3 Sabine (cube (1 / 2) (1 / 10)) [] 1 343 None = Some (rt60_sabine 6 1 (1 / 6) 0 343).
Proof.
  rewrite C105_sabine_one; [|lra|lra|intros w Hw; cbn [cube In] in Hw; destruct Hw as [<-|[<-|[<-|[<-|[<-|[<-|[]]]]]]]; reflexivity|apply cube_ok; [lra|lra|exact I]|rewrite cube_mean; lra].
  rewrite cube_surface, cube_mean. do 2 f_equal. field.
Qed.
Print Assumptions C105_sabine.
