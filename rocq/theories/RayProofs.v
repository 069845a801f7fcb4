(** Proofs about [RayModel]. *)
From Coq Require Import List ZArith Lia Reals Lra Psatz Bool Ratan.
From Verif Require Import Base BaseProofs Vec GeometryModel GeometrySpec GeometryProofs
  WallModel WallSpec WallProofs RayModel RaySpec.
Import ListNotations.
Local Open Scope R_scope.

(** ** C17 *)
Lemma fold_Rmax_ge : forall l a, a <= fold_left Rmax l a /\ forall x, In x l -> x <= fold_left Rmax l a.
Proof.
  induction l as [|y l IH]; intros a; simpl.
  - split; [lra|]. intros x [].
  - destruct (IH (Rmax a y)) as [H1 H2]. pose proof (Rmax_l a y). pose proof (Rmax_r a y).
    split; [lra|]. intros x [<-|Hx]; [lra|auto].
Qed.
Lemma fold_Rmin_le : forall l a, fold_left Rmin l a <= a /\ forall x, In x l -> fold_left Rmin l a <= x.
Proof.
  induction l as [|y l IH]; intros a; simpl.
  - split; [lra|]. intros x [].
  - destruct (IH (Rmin a y)) as [H1 H2]. pose proof (Rmin_l a y). pose proof (Rmin_r a y).
    split; [lra|]. intros x [<-|Hx]; [lra|auto].
Qed.
Lemma list_max_ge : forall l x, In x l -> x <= list_max l.
Proof.
  intros [|y l] x H; [destruct H|]. unfold list_max; simpl.
  destruct (fold_Rmax_ge l y) as [H1 H2]. destruct H as [<-|H]; auto.
Qed.
Lemma list_min_le : forall l x, In x l -> list_min l <= x.
Proof.
  intros [|y l] x H; [destruct H|]. unfold list_min; simpl.
  destruct (fold_Rmin_le l y) as [H1 H2]. destruct H as [<-|H]; auto.
Qed.

Lemma fold_max_gen : forall {A} (f : A -> R) l a,
  let m := fold_left (fun m w => let x := f w in if Rltb m x then x else m) l a in
  a <= m /\ forall w, In w l -> f w <= m.
Proof.
  induction l as [|y l IH]; intros a; cbn [fold_left].
  - split; [lra|]. intros x [].
  - cbv zeta in *. destruct (IH (if Rltb a (f y) then f y else a)) as [H1 H2].
    assert (a <= (if Rltb a (f y) then f y else a) /\ f y <= (if Rltb a (f y) then f y else a)) by (rdec; lra).
    split; [lra|]. intros x [<-|H']; [lra|auto].
Qed.
Lemma fold_min_gen : forall {A} (f : A -> R) l a,
  let m := fold_left (fun m w => let x := f w in if Rltb x m then x else m) l a in
  m <= a /\ forall w, In w l -> m <= f w.
Proof.
  induction l as [|y l IH]; intros a; cbn [fold_left].
  - split; [lra|]. intros x [].
  - cbv zeta in *. destruct (IH (if Rltb (f y) a then f y else a)) as [H1 H2].
    assert ((if Rltb (f y) a then f y else a) <= a /\ (if Rltb (f y) a then f y else a) <= f y) by (rdec; lra).
    split; [lra|]. intros x [<-|H']; [lra|auto].
Qed.

Lemma corner_bounds : forall r c d, is_corner r c -> length c = r_dim r ->
  bound_min r d <= nth d c 0 <= bound_max r d.
Proof.
  intros r c d (w & Hw & Hc) L.
  assert (B : wall_coord list_min (r_dim r) d w <= nth d c 0 <= wall_coord list_max (r_dim r) d w).
  { unfold wall_coord. destruct (Nat.ltb_spec d (r_dim r)).
    - split; [apply list_min_le | apply list_max_ge]; apply in_map_iff; exists c; auto.
    - rewrite nth_overflow by lia. lra. }
  unfold bound_min, bound_max. destruct (r_walls r) as [|w0 ws]; [destruct Hw|].
  destruct (fold_max_gen (wall_coord list_max (r_dim r) d) ws (wall_coord list_max (r_dim r) d w0)) as [M1 M2].
  destruct (fold_min_gen (wall_coord list_min (r_dim r) d) ws (wall_coord list_min (r_dim r) d w0)) as [N1 N2].
  cbv zeta in *. destruct Hw as [<-|Hw]; [lra|]. specialize (M2 w Hw). specialize (N2 w Hw). lra.
Qed.

Lemma hull_bounds : forall r, (forall c, is_corner r c -> length c = r_dim r) ->
  forall p, hull (is_corner r) p -> length p = r_dim r /\ forall d, bound_min r d <= nth d p 0 <= bound_max r d.
Proof.
  intros r L p H. induction H as [p H | p q t Hp [Lp IHp] Hq [Lq IHq] Ht].
  - split; [auto|]. intros d. apply corner_bounds; auto.
  - split; [vlen|]. intros d. rewrite nth_vadd by vlen. rewrite !nth_vscal.
    specialize (IHp d). specialize (IHq d). nra.
Qed.

Lemma vsq_le_coord : forall a b, (length a <= length b)%nat ->
  (forall i, Rabs (nth i a 0) <= Rabs (nth i b 0)) -> vsq a <= vsq b.
Proof.
  induction a as [|x a IH]; destruct b as [|y b]; simpl; intros L H; try lia.
  - unfold vsq, dot; simpl; lra.
  - unfold vsq at 1, dot; simpl. pose proof (vsq_nonneg b). unfold vsq, dot in *. simpl. nra.
  - specialize (IH b ltac:(lia) (fun i => H (S i))). specialize (H 0%nat). simpl in H.
    unfold vsq in *. rewrite !dot_cons. 
    assert (x * x <= y * y).
    { rewrite <- (Rabs_pos_eq (x*x)), <- (Rabs_pos_eq (y*y)) by nra. rewrite !Rabs_mult.
      pose proof (Rabs_pos x). nra. }
    lra.
Qed.

Lemma max_distance_proof : forall r, (r_dim r <= 3)%nat -> (forall c, is_corner r c -> length c = r_dim r) ->
  forall p q, hull (is_corner r) p -> hull (is_corner r) q -> vdist p q < max_distance r.
Proof.
  intros r D L p q Hp Hq.
  destruct (hull_bounds r L p Hp) as [Lp Bp]. destruct (hull_bounds r L q Hq) as [Lq Bq].
  unfold max_distance, vdist.
  set (m := vminus (map (bound_min r) (seq 0 3)) (map (bound_max r) (seq 0 3))).
  assert (vnorm (vminus p q) <= vnorm m); [|lra].
  unfold vnorm. apply sqrt_le_1_alt. apply vsq_le_coord.
  - rewrite vminus_length by congruence. subst m. simpl. lia.
  - intros i. rewrite nth_vminus by congruence.
    destruct (Nat.lt_ge_cases i 3) as [Hi|Hi].
    + subst m. rewrite nth_vminus by reflexivity.
      assert (E : forall f : nat -> R, nth i (map f (seq 0 3)) 0 = f i).
      { intros f. destruct i as [|[|[|i]]]; try lia; reflexivity. }
      rewrite !E. specialize (Bp i). specialize (Bq i).
      unfold Rabs. destruct (Rcase_abs _), (Rcase_abs _); lra.
    + rewrite !nth_overflow by lia. unfold Rminus. rewrite Rplus_opp_r, Rabs_R0. apply Rabs_pos.
Qed.

(** ** C18 *)
(** What the loop over the walls guarantees, for a list [ws] whose positions start at [i]. *)
Lemma nearest_proof : forall D eps s e ws i best bound,
  let res := nearest D eps s e ws i best bound in
  let db := match res with Some h => h_dist h | None => bound end in
  (* the outcome is the previous best or a hit of this list *)
  (match best with Some h => h_dist h = bound | None => True end) ->
  (res = best \/
   exists h j w ret, res = Some h /\ h_wall h = (i + j)%nat /\ nth_error ws j = Some w /\
     wall_intersection D eps w s e = (ret, Some (h_pt h)) /\ (-1 < ret)%Z /\
     h_dist h = vdist (h_pt h) s /\ eps < h_dist h < bound) /\
  db <= bound /\
  forall j w ret x, nth_error ws j = Some w -> wall_intersection D eps w s e = (ret, Some x) ->
    (-1 < ret)%Z -> eps < vdist x s -> db <= vdist x s.
Proof.
  intros D eps s e. induction ws as [|w ws IH]; intros i best bound; cbn [nearest]; intros Hb.
  - split; [left; auto|]. split.
    + destruct best; lra.
    + intros [|j]; discriminate.
  - destruct (wall_intersection D eps w s e) as [ret [x|]] eqn:E.
    + cbv zeta. destruct ((-1 <? ret)%Z && (Rltb eps (vnorm (vminus x s)) && Rltb (vnorm (vminus x s)) bound)) eqn:C.
      * apply andb_true_iff in C. destruct C as [C1 C2]. apply andb_true_iff in C2. destruct C2 as [C2 C3].
        apply Z.ltb_lt in C1. apply Rltb_true in C2. apply Rltb_true in C3.
        set (h := {| h_pt := x; h_wall := i; h_dist := vnorm (vminus x s) |}).
        destruct (IH (S i) (Some h) (vnorm (vminus x s)) eq_refl) as (A & B & M).
        cbv zeta in *.
        assert (Sm : exists h', nearest D eps s e ws (S i) (Some h) (vnorm (vminus x s)) = Some h').
        { destruct A as [A|(h' & j & w' & ret' & A & _)]; eauto. }
        destruct Sm as (hs & Sm). rewrite Sm in *.
        split; [right|split].
        -- destruct A as [A|(h' & j & w' & ret' & A)].
           ++ exists h, 0%nat, w, ret. injection A as ->. subst h. simpl. repeat split; auto; lia.
           ++ exists h', (S j), w', ret'. destruct A as (A1 & A2 & A3 & A4 & A5 & A6 & A7).
              repeat split; auto; try lia; try lra. 
        -- lra.
        -- intros [|j] w' ret' x' N I R Hd.
           ++ simpl in N. injection N as <-. rewrite E in I. injection I as <- <-. exact B.
           ++ apply (M j w' ret' x'); auto.
      * destruct (IH (S i) best bound Hb) as (A & B & M). cbv zeta in *.
        split; [|split].
        -- destruct A as [A|(h' & j & w' & ret' & A)]; [left; auto|right].
           exists h', (S j), w', ret'. destruct A as (A1 & A2 & A3 & A4 & A5 & A6 & A7).
           repeat split; auto; try lia; lra.
        -- exact B.
        -- intros [|j] w' ret' x' N I R Hd.
           ++ simpl in N. injection N as <-. rewrite E in I. injection I as <- <-.
              apply andb_false_iff in C. destruct C as [C|C]; [apply Z.ltb_ge in C; lia|].
              apply andb_false_iff in C. destruct C as [C|C]; apply Rltb_false in C; unfold vdist in *; lra.
           ++ apply (M j w' ret' x'); auto.
    + destruct (IH (S i) best bound Hb) as (A & B & M). cbv zeta in *.
      split; [|split].
      * destruct A as [A|(h' & j & w' & ret' & A)]; [left; auto|right].
        exists h', (S j), w', ret'. destruct A as (A1 & A2 & A3 & A4 & A5 & A6 & A7).
        repeat split; auto; try lia; lra.
      * exact B.
      * intros [|j] w' ret' x' N I R Hd.
        -- simpl in N. injection N as <-. rewrite E in I. discriminate.
        -- apply (M j w' ret' x'); auto.
Qed.

(** ** C19 *)
Lemma first_some_spec : forall {A B} (f : A -> option B) l,
  (forall b, first_some f l = Some b -> exists a, In a l /\ f a = Some b) /\
  (first_some f l = None -> forall a, In a l -> f a = None).
Proof.
  induction l as [|a l [IH1 IH2]]; simpl.
  - split; [discriminate|intros _ a []].
  - destruct (f a) eqn:E; split.
    + intros b' [= <-]. exists a; auto.
    + discriminate.
    + intros b Hb. destruct (IH1 b Hb) as (a' & H1 & H2). exists a'; auto.
    + intros H a' [<-|H']; auto.
Qed.

Lemma nth_map_seq : forall (f : nat -> R) n i, (i < n)%nat -> nth i (map f (seq 0 n)) 0 = f i.
Proof.
  intros f n i H. rewrite (nth_indep _ 0 (f 0%nat)) by (rewrite map_length, seq_length; auto).
  rewrite map_nth. now rewrite seq_nth by auto.
Qed.

Lemma nth_le_vnorm : forall v i, Rabs (nth i v 0) <= vnorm v.
Proof.
  intros v i. unfold vnorm. rewrite <- sqrt_Rsqr_abs. apply sqrt_le_1_alt. unfold Rsqr. revert i.
  induction v as [|x v IH]; intros i.
  - destruct i; simpl; unfold vsq, dot; simpl; lra.
  - unfold vsq in *. rewrite dot_cons. destruct i; simpl.
    + pose proof (vsq_nonneg v). unfold vsq in *. lra.
    + specialize (IH i). nra.
Qed.

Lemma plane_try_sound : forall D eps size start dir d0 h, 0 < eps ->
  length size = D -> length start = D -> length dir = D -> (d0 < D)%nat ->
  in_box 0 size start -> plane_try D eps size start dir d0 = Some h ->
  exists t, 0 < t /\ h_pt h = vadd start (vscal t dir) /\
    (nth d0 dir 0 <= - eps /\ nth d0 (h_pt h) 0 = 0 /\ h_wall h = (2 * d0)%nat \/
     eps <= nth d0 dir 0 /\ nth d0 (h_pt h) 0 = nth d0 size 0 /\ h_wall h = (2 * d0 + 1)%nat) /\
    (forall s, 0 <= s <= t -> in_box eps size (vadd start (vscal s dir))) /\
    h_dist h = vdist (h_pt h) start /\ eps <= h_dist h /\ length (h_pt h) = D.
Proof.
  intros D eps size start dir d0 h He Ls Lst Ld Hd Hin. unfold plane_try.
  destruct (Rltb (Rabs (nth d0 dir 0)) eps) eqn:A; [discriminate|]. apply Rltb_false in A.
  set (back := Rltb (nth d0 dir 0) 0).
  set (plane := if back then 0 else nth d0 size 0).
  set (distance := if back then nth d0 start 0 else nth d0 size 0 - nth d0 start 0).
  destruct (Rltb distance eps) eqn:B; [discriminate|]. apply Rltb_false in B.
  set (t := distance / Rabs (nth d0 dir 0)).
  set (res := map _ (seq 0 D)).
  destruct (forallb _ (seq 0 D)) eqn:F; [|discriminate]. intros [= <-]. simpl.
  assert (T : 0 < t) by (apply Rdiv_lt_0_compat; lra).
  assert (P : plane = nth d0 start 0 + t * nth d0 dir 0).
  { subst t plane distance. destruct back eqn:Bk; subst back.
    - apply Rltb_true in Bk. rewrite Rabs_left in * by lra. field. lra.
    - apply Rltb_false in Bk. rewrite Rabs_right in * by lra. field. lra. }
  assert (E : res = vadd start (vscal t dir)).
  { apply vec_ext.
    - subst res. rewrite map_length, seq_length. vlen.
    - intros i. rewrite nth_vadd by vlen. rewrite nth_vscal.
      destruct (Nat.lt_ge_cases i D) as [Hi|Hi].
      + subst res. rewrite nth_map_seq by auto. destruct (Nat.eqb_spec i d0) as [->|]; auto.
      + rewrite !nth_overflow; try lia; [ring|]. subst res. rewrite map_length, seq_length. lia. }
  assert (Lr : length res = D) by (subst res; now rewrite map_length, seq_length).
  exists t. split; [exact T|]. split; [exact E|]. split; [|split; [|split; [|split]]].
  - assert (N : nth d0 res 0 = plane).
    { subst res. rewrite nth_map_seq by auto. now rewrite Nat.eqb_refl. }
    rewrite N. subst plane. destruct back eqn:Bk; subst back; [left|right].
    + apply Rltb_true in Bk. rewrite Rabs_left in A by lra. split; [lra|]. split; [auto|]. lia.
    + apply Rltb_false in Bk. rewrite Rabs_right in A by lra. split; [lra|]. split; auto.
  - intros s Hs i Hi. rewrite Ls in Hi. specialize (Hin i ltac:(lia)).
    rewrite nth_vadd by vlen. rewrite nth_vscal.
    assert (Z : - eps <= nth i start 0 + t * nth i dir 0 <= nth i size 0 + eps).
    { rewrite forallb_forall in F. specialize (F i ltac:(apply in_seq; lia)).
      assert (Q : nth i res 0 = nth i start 0 + t * nth i dir 0).
      { rewrite E, nth_vadd by vlen. now rewrite nth_vscal. }
      apply orb_true_iff in F. destruct F as [F|F].
      - apply Nat.eqb_eq in F. subst i. rewrite <- P. subst plane. destruct back; lra.
      - apply negb_true_iff in F. apply orb_false_iff in F. destruct F as [F1 F2].
        apply Rleb_false in F1. apply Rleb_false in F2. rewrite Q in *. lra. }
    destruct (Rle_dec 0 (nth i dir 0)).
    + assert (0 <= s * nth i dir 0 <= t * nth i dir 0) by nra. lra.
    + assert (t * nth i dir 0 <= s * nth i dir 0 <= 0) by nra. lra.
  - reflexivity.
  - apply Rle_trans with (Rabs (nth d0 (vminus res start) 0)); [|apply nth_le_vnorm].
    rewrite nth_vminus by congruence. 
    assert (N : nth d0 res 0 = plane).
    { subst res. rewrite nth_map_seq by auto. now rewrite Nat.eqb_refl. }
    rewrite N. subst plane distance. destruct back.
    + rewrite Rabs_left1; lra.
    + rewrite Rabs_right; lra.
  - exact Lr.
Qed.

Lemma plane_try_dist : forall D eps size start dir d0 h,
  length start = D -> (d0 < D)%nat -> 0 < eps ->
  plane_try D eps size start dir d0 = Some h ->
  eps <= h_dist h /\ length (h_pt h) = D /\ (h_wall h < 2 * D)%nat.
Proof.
  intros D eps size start dir d0 h Lst Hd He. unfold plane_try.
  destruct (Rltb (Rabs (nth d0 dir 0)) eps) eqn:A; [discriminate|].
  set (back := Rltb (nth d0 dir 0) 0).
  set (distance := if back then nth d0 start 0 else nth d0 size 0 - nth d0 start 0).
  destruct (Rltb distance eps) eqn:B; [discriminate|]. apply Rltb_false in B.
  set (t := distance / Rabs (nth d0 dir 0)).
  set (res := map _ (seq 0 D)).
  destruct (forallb _ (seq 0 D)) eqn:F; [|discriminate]. intros [= <-]. simpl.
  assert (Lr : length res = D) by (subst res; now rewrite map_length, seq_length).
  split; [|split; [exact Lr|destruct back; lia]].
  apply Rle_trans with (Rabs (nth d0 (vminus res start) 0)); [|apply nth_le_vnorm].
  rewrite nth_vminus by congruence. 
  subst res. rewrite nth_map_seq, Nat.eqb_refl by auto. subst distance. destruct back.
  - rewrite Rabs_left1; lra.
  - rewrite Rabs_right; lra.
Qed.

Lemma vminus_vadd_self : forall s e : vec, length s = length e -> forall t,
  along s e t = vadd s (vscal t (vminus e s)).
Proof. reflexivity. Qed.

Lemma shoebox_hit_sound : forall D eps size start end_ h, 0 < eps ->
  length size = D -> length start = D -> length end_ = D -> in_box 0 size start ->
  next_hit_shoebox D eps size start end_ = Some h ->
  exists t d, (d < D)%nat /\ 0 < t /\ h_pt h = along start end_ t /\
    (nth d end_ 0 < nth d start 0 /\ nth d (h_pt h) 0 = 0 /\ h_wall h = (2 * d)%nat \/
     nth d start 0 < nth d end_ 0 /\ nth d (h_pt h) 0 = nth d size 0 /\ h_wall h = (2 * d + 1)%nat) /\
    (forall s, 0 <= s <= t -> in_box eps size (along start end_ s)) /\
    h_dist h = vdist (h_pt h) start /\ eps <= h_dist h /\ length (h_pt h) = D.
Proof.
  intros D eps size start end_ h He Ls Lst Le Hin H. unfold next_hit_shoebox in H.
  destruct (first_some_spec (plane_try D eps size start (vminus end_ start)) (seq 0 D)) as [P _].
  destruct (P h H) as (d & Hd & E). apply in_seq in Hd. 
  assert (Ld : length (vminus end_ start) = D) by vlen.
  destruct (plane_try_sound D eps size start (vminus end_ start) d h He Ls Lst Ld ltac:(lia) Hin E)
    as (t & T & E1 & E2 & E3 & E4 & E5 & E6).
  exists t, d. rewrite nth_vminus in E2 by congruence.
  repeat split; auto; try lia. 
  - destruct E2 as [(A & B & C)|(A & B & C)]; [left|right]; repeat split; auto; lra.
  - now apply (E3 s H0).
  - now apply (E3 s H0).
Qed.

(** Minimum of a function over a non-empty list. *)
Lemma argmin : forall {A} (f : A -> R) l, l <> [] -> exists a, In a l /\ forall b, In b l -> f a <= f b.
Proof.
  induction l as [|x l IH]; intros H; [contradiction|].
  destruct l as [|y l].
  - exists x. split; [left; auto|]. intros b [<-|[]]. lra.
  - destruct IH as (a & Ha & M); [discriminate|].
    destruct (Rle_dec (f x) (f a)).
    + exists x. split; [left; auto|]. intros b [<-|Hb]; [lra|]. specialize (M b Hb). lra.
    + exists a. split; [right; auto|]. intros b [<-|Hb]; [lra|]. auto.
Qed.

Lemma vsq_exceeds : forall a b, length a = length b -> vsq b < vsq a -> (forall i, 0 <= nth i b 0) ->
  exists i, (i < length a)%nat /\ nth i b 0 < Rabs (nth i a 0).
Proof.
  intros a b L H P.
  assert (D : (exists i, (i < length a)%nat /\ nth i b 0 < Rabs (nth i a 0)) \/
              (forall i, (i < length a)%nat -> Rabs (nth i a 0) <= nth i b 0)).
  { clear H P. revert b L. induction a as [|x a IH]; intros [|y b] L; try discriminate.
    - right. simpl; intros; lia.
    - destruct (Rlt_dec y (Rabs x)).
      + left. exists 0%nat. simpl; split; [lia|auto].
      + destruct (IH b ltac:(simpl in L; lia)) as [(i & Hi & E)|E].
        * left. exists (S i). simpl; split; [lia|auto].
        * right. intros [|i] Hi; simpl; [lra|]. apply E. simpl in Hi; lia. }
  destruct D as [D|D]; [exact D|]. exfalso.
  pose proof (vsq_le_coord a b ltac:(lia)) as Q.
  assert (vsq a <= vsq b); [|lra]. apply Q. intros i.
  rewrite (Rabs_right (nth i b 0)) by (apply Rle_ge; auto).
  destruct (Nat.lt_ge_cases i (length a)); [auto|].
  rewrite (nth_overflow a) by lia. rewrite Rabs_R0. auto.
Qed.

Lemma shoebox_hit_complete : forall D eps size start end_, 0 < eps ->
  length size = D -> length start = D -> length end_ = D -> in_box 0 size start ->
  (forall i, (i < D)%nat -> eps <= nth i size 0) ->
  (forall i, (i < D)%nat -> eps <= Rabs (nth i end_ 0 - nth i start 0) ->
     eps <= ahead size start (vminus end_ start) i) ->
  vnorm size < vdist end_ start ->
  exists h, next_hit_shoebox D eps size start end_ = Some h.
Proof.
  intros D eps size start end_ He Ls Lst Le Hin Hsz Ha Hlong.
  unfold next_hit_shoebox. set (dir := vminus end_ start) in *.
  assert (Ld : length dir = D) by (subst dir; vlen).
  assert (Nd : forall i, nth i dir 0 = nth i end_ 0 - nth i start 0).
  { intros. subst dir. apply nth_vminus. congruence. }
  destruct (first_some (plane_try D eps size start dir) (seq 0 D)) as [h|] eqn:E; [eauto|exfalso].
  destruct (first_some_spec (plane_try D eps size start dir) (seq 0 D)) as [_ P]. specialize (P E). clear E.
  (* the axes along which the ray moves *)
  set (mov := filter (fun i => Rleb eps (Rabs (nth i dir 0))) (seq 0 D)).
  set (tt := fun i => ahead size start dir i / Rabs (nth i dir 0)).
  assert (Hmov : forall i, In i mov <-> (i < D)%nat /\ eps <= Rabs (nth i dir 0)).
  { intros i. unfold mov. rewrite filter_In, in_seq, Rleb_true. simpl. intuition lia. }
  assert (Aup : forall i, (i < D)%nat -> 0 <= ahead size start dir i <= nth i size 0).
  { intros i Hi. specialize (Hin i ltac:(lia)). unfold ahead. destruct (Rlt_dec _ _); lra. }
  (* one axis is long *)
  assert (Long : exists i, In i mov /\ tt i < 1).
  { destruct (vsq_exceeds dir size) as (i & Hi & C); [congruence| | |].
    - unfold vdist in Hlong. fold dir in Hlong. apply sqrt_lt_0_alt in Hlong. exact Hlong.
    - intros i. destruct (Nat.lt_ge_cases i D) as [Hi|Hi]; [specialize (Hsz i Hi); lra|].
      rewrite nth_overflow by lia. lra.
    - exists i. rewrite Ld in Hi. pose proof (Hsz i Hi). split; [apply Hmov; split; auto; lra|].
      unfold tt. specialize (Aup i Hi).
      apply Rmult_lt_reg_r with (Rabs (nth i dir 0)); [lra|].
      unfold Rdiv. rewrite Rmult_assoc, Rinv_l by lra. lra. }
  destruct Long as (i0 & Hi0 & T0).
  destruct (argmin tt mov) as (d & Hd & M); [intros E; rewrite E in Hi0; destruct Hi0|].
  assert (T1 : tt d < 1) by (specialize (M i0 Hi0); lra).
  pose proof (proj1 (Hmov d) Hd) as [HdD Hde].
  specialize (P d ltac:(apply in_seq; lia)). unfold plane_try in P.
  destruct (Rltb (Rabs (nth d dir 0)) eps) eqn:A; [apply Rltb_true in A; lra|].
  assert (Ed : (if Rltb (nth d dir 0) 0 then nth d start 0 else nth d size 0 - nth d start 0) = ahead size start dir d).
  { unfold ahead, Rltb. destruct (Rlt_dec _ _); reflexivity. }
  rewrite Ed in P. pose proof (Ha d HdD ltac:(rewrite <- Nd; auto)) as Had.
  destruct (Rltb (ahead size start dir d) eps) eqn:B; [apply Rltb_true in B; lra|].
  fold (tt d) in P.
  assert (Tpos : 0 < tt d) by (apply Rdiv_lt_0_compat; lra).
  destruct (forallb _ (seq 0 D)) eqn:F in P; [discriminate|].
  apply not_true_iff_false in F. apply F. clear F P. apply forallb_forall. intros i Hi. apply in_seq in Hi.
  destruct (Nat.eqb_spec i d) as [->|Hne]; [reflexivity|]. simpl.
  rewrite nth_map_seq by lia. destruct (Nat.eqb_spec i d) as [|_]; [contradiction|].
  assert (Z : - eps < nth i start 0 + tt d * nth i dir 0 < nth i size 0 + eps).
  { pose proof (Hin i ltac:(lia)) as Hb.
    destruct (Rle_dec eps (Rabs (nth i dir 0))) as [Hm|Hm].
    - specialize (M i (proj2 (Hmov i) (conj (proj2 Hi) Hm))).
      assert (Q : tt d * Rabs (nth i dir 0) <= ahead size start dir i).
      { apply Rle_trans with (tt i * Rabs (nth i dir 0)).
        - apply Rmult_le_compat_r; [apply Rabs_pos|auto].
        - unfold tt, Rdiv. rewrite Rmult_assoc, Rinv_l by lra. lra. }
      unfold ahead in Q. destruct (Rlt_dec (nth i dir 0) 0) as [Hneg|Hpos].
      + rewrite Rabs_left in Q by lra. nra.
      + rewrite Rabs_right in Q by lra. nra.
    - assert (Q : tt d * Rabs (nth i dir 0) < eps).
      { pose proof (Rabs_pos (nth i dir 0)). nra. }
      pose proof (Rle_abs (tt d * nth i dir 0)) as Q1.
      pose proof (Rle_abs (- (tt d * nth i dir 0))) as Q2. rewrite Rabs_Ropp in Q2.
      rewrite Rabs_mult, (Rabs_right (tt d)) in Q1, Q2 by lra. lra. }
  apply negb_true_iff. apply orb_false_iff. split; apply Rleb_false; lra.
Qed.

(** ** C22 *)

Lemma wall_intersection_length : forall D eps w p1 p2 ret x, D = 2%nat \/ D = 3%nat ->
  length p1 = D -> length p2 = D ->
  wall_intersection D eps w p1 p2 = (ret, Some x) -> length x = D.
Proof.
  intros D eps w p1 p2 ret x HD L1 L2. unfold wall_intersection.
  destruct (Nat.eqb_spec D 2) as [->|].
  - destruct (snd (intersection_2d _ _ _ _ _)) as [q|]; simpl; [|discriminate]. now intros [= _ <-].
  - destruct (intersection_seg_plane eps p1 p2 (w_origin w) (w_normal w)) as [r1 [y|]] eqn:E; [|discriminate].
    assert (length y = D).
    { unfold intersection_seg_plane in E.
      destruct (Rltb _ _); [|discriminate]. destruct (_ && _); [|discriminate].
      destruct (_ || _); injection E as _ <-; vlen. }
    destruct (_ <? 0)%Z; [discriminate|]. destruct (_ =? 1)%Z; intros [= _ <-]; auto.
Qed.

Lemma next_wall_hit_ok : forall r eps s e h, 0 < eps ->
  r_dim r = 2%nat \/ r_dim r = 3%nat -> length s = r_dim r -> length e = r_dim r ->
  (r_shoebox r <> None -> length (r_walls r) = (2 * r_dim r)%nat) ->
  next_wall_hit r eps s e false = Some h ->
  eps <= h_dist h /\ length (h_pt h) = r_dim r /\ (h_wall h < length (r_walls r))%nat.
Proof.
  intros r eps s e h He HD Ls Le Hw. unfold next_wall_hit.
  destruct (r_shoebox r) as [size|] eqn:Sh.
  - intros H. destruct (first_some_spec (plane_try (r_dim r) eps size s (vminus e s)) (seq 0 (r_dim r))) as [P _].
    destruct (P h H) as (d & Hd & E). apply in_seq in Hd.
    rewrite Hw by discriminate. apply (plane_try_dist (r_dim r) eps size s (vminus e s) d h); auto; lia.
  - intros H. destruct (nearest_proof (r_dim r) eps s e (r_walls r) 0 None (max_distance r) I) as (A & _ & _).
    destruct A as [A|(h' & j & w & ret & A1 & A2 & A3 & A4 & A5 & A6 & A7)].
    + congruence.
    + assert (h' = h) by congruence. subst h'. split; [lra|]. split.
      * apply (wall_intersection_length _ _ _ _ _ _ _ HD Ls Le A4).
      * rewrite A2. simpl. apply nth_error_Some. congruence.
Qed.

(** The loop as a relation, without fuel. *)
Inductive traced (r : room) (eps et : R) (rng : nat -> wall -> vec) : nat -> ray -> list hop -> Prop :=
| traced_lost : forall k s, ray_step r eps et (rng k) s = None -> traced r eps et rng k s []
| traced_stop : forall k s h, ray_step r eps et (rng k) s = Some h -> hp_stop h = true ->
    traced r eps et rng k s [h]
| traced_next : forall k s h t, ray_step r eps et (rng k) s = Some h -> hp_stop h = false ->
    traced r eps et rng (S k) (hp_after h) t -> traced r eps et rng k s (h :: t).

Lemma ray_loop_traced : forall fuel r eps et rng k s l,
  ray_loop fuel r eps et rng k s = Some l -> traced r eps et rng k s l.
Proof.
  induction fuel as [|fuel IH]; simpl; intros r eps et rng k s l H; [discriminate|].
  destruct (ray_step r eps et (rng k) s) as [h|] eqn:E.
  - destruct (hp_stop h) eqn:S.
    + injection H as <-. now apply traced_stop.
    + destruct (ray_loop fuel r eps et rng (Datatypes.S k) (hp_after h)) as [t|] eqn:L; [|discriminate].
      injection H as <-. apply traced_next; auto.
  - injection H as <-. now apply traced_lost.
Qed.

Lemma bounce_dir_length : forall w dir lamb n, length (w_normal w) = n -> length dir = n -> length lamb = n ->
  length (bounce_dir w dir lamb) = n.
Proof.
  intros w dir lamb n Hn Hd Hl. unfold bounce_dir.
  assert (length (normal_reflect w dir) = n) by (unfold normal_reflect; vlen).
  destruct (does_scatter w); auto. rewrite vnormalized_length. vlen.
Qed.

Lemma get_wall_In : forall r i, (i < length (r_walls r))%nat -> In (get_wall r i) (r_walls r).
Proof. intros. unfold get_wall. now apply nth_In. Qed.

Lemma ray_step_ok : forall r eps et lamb s h, 0 < eps -> walls_wf r -> ray_wf r s ->
  (forall w, In w (r_walls r) -> length (lamb w) = r_dim r) ->
  ray_step r eps et lamb s = Some h ->
  ray_wf r (hp_after h) /\ hp_before h = s /\ eps <= h_dist (hp_hit h) /\
  (h_wall (hp_hit h) < length (r_walls r))%nat /\
  ry_travel (hp_after h) = ry_travel s + h_dist (hp_hit h) /\
  ry_trans (hp_after h) = map2 Rmult (ry_trans s) (energy_reflection (get_wall r (h_wall (hp_hit h)))) /\
  ry_count (hp_after h) = (ry_count s + 1)%Z /\
  ry_start (hp_after h) = h_pt (hp_hit h) /\
  next_wall_hit r eps (ry_start s) (vadd (ry_start s) (vscal (max_distance r) (ry_dir s))) false = Some (hp_hit h) /\
  (hp_stop h = true <-> r_tthres r * r_speed r < ry_travel (hp_after h) \/ list_max (ry_trans (hp_after h)) < et).
Proof.
  intros r eps et lamb s h He (HD & Hn & Hw) [W1 W2] Hl. unfold ray_step.
  destruct (next_wall_hit _ _ _ _ _) as [h0|] eqn:E; [|discriminate].
  intros [= <-]. simpl.
  assert (Le : length (vadd (ry_start s) (vscal (max_distance r) (ry_dir s))) = r_dim r) by vlen.
  destruct (next_wall_hit_ok r eps _ _ h0 He HD W1 Le Hw E) as (A & B & C).
  repeat split; auto.
  - simpl. apply bounce_dir_length; auto using get_wall_In.
  - rewrite orb_true_iff, !Rltb_true. tauto.
  - rewrite orb_true_iff, !Rltb_true. tauto.
Qed.

Lemma ray_loop_terminates : forall r eps et rng, 0 < eps -> walls_wf r -> rng_wf r rng ->
  forall m k s, ray_wf r s ->
  r_tthres r * r_speed r < ry_travel s + INR m * eps ->
  forall fuel, (m + 1 < fuel)%nat -> exists l, ray_loop fuel r eps et rng k s = Some l.
Proof.
  intros r eps et rng He Hw Hr. induction m as [|m IH]; intros k s Ws Hm fuel Hf.
  - destruct fuel as [|fuel]; [lia|]. simpl in *.
    destruct (ray_step r eps et (rng k) s) as [h|] eqn:E; [|eauto].
    destruct (ray_step_ok r eps et (rng k) s h He Hw Ws (Hr k) E) as (A1 & A2 & A3 & A4 & A5 & A6 & A7 & A8 & A9 & A10).
    destruct (hp_stop h) eqn:S; [eauto|].
    exfalso. discriminate (proj2 A10 ltac:(left; lra)).
  - destruct fuel as [|fuel]; [lia|]. cbn [ray_loop].
    destruct (ray_step r eps et (rng k) s) as [h|] eqn:E; [|eauto].
    destruct (ray_step_ok r eps et (rng k) s h He Hw Ws (Hr k) E) as (A1 & A2 & A3 & A4 & A5 & A6 & A7 & A8 & A9 & A10).
    destruct (hp_stop h) eqn:S; [eauto|].
    destruct (IH (Datatypes.S k) (hp_after h) A1) with (fuel := fuel) as (l & L); [|lia|].
    + rewrite S_INR in Hm. lra.
    + rewrite L. simpl. eauto.
Qed.

Lemma ray_loop_fuel : forall r eps et rng fuel fuel' k s l, (fuel <= fuel')%nat ->
  ray_loop fuel r eps et rng k s = Some l -> ray_loop fuel' r eps et rng k s = Some l.
Proof.
  intros r eps et rng. induction fuel as [|fuel IH]; intros fuel' k s l Hf H; [discriminate|].
  destruct fuel' as [|fuel']; [lia|]. cbn [ray_loop] in *.
  destruct (ray_step r eps et (rng k) s) as [h|]; auto. destruct (hp_stop h); auto.
  destruct (ray_loop fuel r eps et rng (S k) (hp_after h)) as [t|] eqn:E; [|discriminate].
  rewrite (IH fuel' (S k) (hp_after h) t) by (auto; lia). exact H.
Qed.

Lemma traced_length : forall r eps et rng k s l, 0 < eps -> walls_wf r -> rng_wf r rng ->
  traced r eps et rng k s l -> ray_wf r s ->
  l = [] \/ ry_travel s + (INR (length l) - 1) * eps <= Rmax (ry_travel s) (r_tthres r * r_speed r).
Proof.
  intros r eps et rng k s l He Hw Hr H. induction H as [k s E | k s h E Sp | k s h t E Sp T IH]; intros Ws; [left; auto|right|right].
  - simpl. pose proof (Rmax_l (ry_travel s) (r_tthres r * r_speed r)). lra.
  - destruct (ray_step_ok r eps et (rng k) s h He Hw Ws (Hr k) E) as (A1 & A2 & A3 & A4 & A5 & A6 & A7 & A8 & A9 & A10).
    assert (Hs : ry_travel (hp_after h) <= r_tthres r * r_speed r).
    { apply Rnot_lt_le. intros C. assert (hp_stop h = true) by (apply A10; auto). congruence. }
    pose proof (Rmax_r (ry_travel s) (r_tthres r * r_speed r)).
    destruct (IH A1) as [->|I].
    + simpl. pose proof (Rmax_l (ry_travel s) (r_tthres r * r_speed r)). lra.
    + rewrite Rmax_right in I by lra. 
      change (length (h :: t)) with (Datatypes.S (length t)). rewrite S_INR. lra.
Qed.

(** Properties of every hop, by induction on the trace. *)
Lemma traced_chain : forall r eps et rng k s l, 0 < eps -> walls_wf r -> rng_wf r rng ->
  traced r eps et rng k s l -> ray_wf r s ->
  forall j h, nth_error l j = Some h ->
    (h_wall (hp_hit h) < length (r_walls r))%nat /\
    ry_travel (hp_before h) = ry_travel s + Rsum (map (fun x => h_dist (hp_hit x)) (firstn j l)) /\
    ry_travel (hp_after h) = ry_travel s + Rsum (map (fun x => h_dist (hp_hit x)) (firstn (S j) l)) /\
    ry_count (hp_before h) = (ry_count s + Z.of_nat j)%Z /\
    ray_wf r (hp_before h) /\
    (j = 0%nat /\ hp_before h = s \/
     exists j' h', j = S j' /\ nth_error l j' = Some h' /\ hp_before h = hp_after h' /\ hp_stop h' = false) /\
    ray_step r eps et (rng (k + j)%nat) (hp_before h) = Some h.
Proof.
  intros r eps et rng k s l He Hw Hr H. induction H as [k s E | k s h E Sp | k s h t E Sp T IH]; intros Ws j h' Hj.
  - destruct j; discriminate.
  - destruct j as [|[|j]]; try discriminate. injection Hj as <-.
    destruct (ray_step_ok r eps et (rng k) s h He Hw Ws (Hr k) E) as (A1 & A2 & A3 & A4 & A5 & A6 & A7 & A8 & A9 & A10).
    rewrite A2, A5. simpl. rewrite Nat.add_0_r.
    repeat split; auto; try lra; try lia; apply Ws.
  - destruct (ray_step_ok r eps et (rng k) s h He Hw Ws (Hr k) E) as (A1 & A2 & A3 & A4 & A5 & A6 & A7 & A8 & A9 & A10).
    destruct j as [|j].
    + injection Hj as <-. rewrite A2, A5. simpl. rewrite Nat.add_0_r.
      repeat split; auto; try lra; try lia; apply Ws.
    + simpl in Hj. destruct (IH A1 j h' Hj) as (B1 & B2 & B3 & B4 & B5 & B6 & B7).
      cbn [firstn map]. change (Rsum (?a :: ?m)) with (a + Rsum m).
      rewrite B2, B3, B4, A5, A7. replace (k + S j)%nat with (S k + j)%nat by lia.
      repeat split; auto; try lra; try lia; try apply B5.
      * cbn [firstn map]. change (Rsum (?a :: ?m)) with (a + Rsum m). lra.
      * right. destruct B6 as [[-> B6]|(j' & h2 & -> & B6 & B8)].
        -- exists 0%nat, h. auto.
        -- exists (S j'), h2. auto.
Qed.

Lemma nth_map2_mult : forall a b i, length a = length b -> (i < length a)%nat ->
  nth i (map2 Rmult a b) 0 = nth i a 0 * nth i b 0.
Proof. intros. apply nth_map2; [ring|auto]. Qed.

Lemma nth_energy_reflection : forall w b, (b < length (w_abs w))%nat ->
  nth b (energy_reflection w) 0 = 1 - nth b (w_abs w) 0.
Proof.
  intros w b H. unfold energy_reflection.
  rewrite (nth_indep _ 0 (1 - 0)) by (rewrite map_length; auto).
  now rewrite (map_nth (fun a => 1 - a)).
Qed.

Lemma traced_energy : forall r eps et rng k s l n, 0 < eps -> walls_wf r -> rng_wf r rng -> room_ok r n ->
  traced r eps et rng k s l -> ray_wf r s -> length (ry_trans s) = n ->
  forall j h, nth_error l j = Some h ->
    length (ry_trans (hp_before h)) = n /\ length (ry_trans (hp_after h)) = n /\
    forall b, (b < n)%nat ->
      nth b (ry_trans (hp_before h)) 0 = nth b (ry_trans s) 0 *
        Rprod (map (fun x => 1 - nth b (w_abs (get_wall r (h_wall (hp_hit x)))) 0) (firstn j l)) /\
      nth b (ry_trans (hp_after h)) 0 = nth b (ry_trans s) 0 *
        Rprod (map (fun x => 1 - nth b (w_abs (get_wall r (h_wall (hp_hit x)))) 0) (firstn (S j) l)).
Proof.
  intros r eps et rng k s l n He Hw Hr Hok H.
  assert (Step : forall k s h, ray_wf r s -> ray_step r eps et (rng k) s = Some h -> length (ry_trans s) = n ->
    length (ry_trans (hp_after h)) = n /\ forall b, (b < n)%nat ->
    nth b (ry_trans (hp_after h)) 0 = nth b (ry_trans s) 0 * (1 - nth b (w_abs (get_wall r (h_wall (hp_hit h)))) 0)).
  { clear H k s l. intros k s h Ws E L.
    destruct (ray_step_ok r eps et (rng k) s h He Hw Ws (Hr k) E) as (A1 & A2 & A3 & A4 & A5 & A6 & _).
    destruct Hok as [_ Hok]. destruct (Hok _ (get_wall_In r _ A4)) as [La _].
    assert (Le : length (energy_reflection (get_wall r (h_wall (hp_hit h)))) = n).
    { unfold energy_reflection. now rewrite map_length. }
    rewrite A6. split; [rewrite map2_length; congruence|].
    intros b Hb. rewrite nth_map2_mult by congruence. f_equal. apply nth_energy_reflection. lia. }
  induction H as [k s E | k s h E Sp | k s h t E Sp T IH]; intros Ws Ln j h' Hj.
  - destruct j; discriminate.
  - destruct j as [|[|j]]; try discriminate. injection Hj as <-.
    destruct (Step k s h Ws E Ln) as [L1 L2].
    destruct (ray_step_ok r eps et (rng k) s h He Hw Ws (Hr k) E) as (A1 & A2 & _).
    rewrite A2. split; [auto|]. split; [auto|]. intros b Hb. simpl. rewrite L2 by auto. split; ring.
  - destruct (Step k s h Ws E Ln) as [L1 L2].
    destruct (ray_step_ok r eps et (rng k) s h He Hw Ws (Hr k) E) as (A1 & A2 & _).
    destruct j as [|j].
    + injection Hj as <-. rewrite A2. split; [auto|]. split; [auto|]. intros b Hb. simpl. rewrite L2 by auto. split; ring.
    + simpl in Hj. destruct (IH A1 L1 j h' Hj) as (B1 & B2 & B3). split; [auto|]. split; [auto|].
      intros b Hb. destruct (B3 b Hb) as [B4 B5]. cbn [firstn map]. unfold Rprod in *. cbn [fold_right].
      rewrite B4, B5, (L2 b Hb). cbn [firstn map fold_right]. split; ring.
Qed.

Lemma traced_end : forall r eps et rng k s l, traced r eps et rng k s l ->
  (forall j h, nth_error l j = Some h -> (S j < length l)%nat -> hp_stop h = false) /\
  (l = [] /\ ray_step r eps et (rng k) s = None \/
   exists h, nth_error l (length l - 1) = Some h /\
     (hp_stop h = true \/ hp_stop h = false /\ ray_step r eps et (rng (k + length l)%nat) (hp_after h) = None)).
Proof.
  intros r eps et rng k s l H. induction H as [k s E | k s h E Sp | k s h t E Sp T IH].
  - split; [intros [|j]; discriminate|left; auto].
  - split; [intros [|j] h' Hj; simpl; intros; [lia|destruct j; discriminate]|].
    right. exists h. simpl. auto.
  - destruct IH as [I1 I2]. split.
    + intros [|j] h' Hj Hl; simpl in *; [congruence|]. apply (I1 j h' Hj). lia.
    + right. destruct I2 as [[-> I2]|(h' & I2 & I3)].
      * exists h. simpl. split; auto. right. split; auto. now rewrite Nat.add_1_r.
      * exists h'. simpl. destruct t as [|t0 t]; [discriminate|]. 
        simpl in *. rewrite Nat.sub_0_r in I2. split; [exact I2|].
        replace (k + S (S (length t)))%nat with (S (k + S (length t))) by lia. exact I3.
Qed.

Lemma Rprod_nonneg_le1 : forall l, (forall x, In x l -> 0 <= x <= 1) -> 0 <= Rprod l <= 1.
Proof.
  induction l as [|x l IH]; intros H; [simpl; lra|]. unfold Rprod in *. cbn [fold_right].
  assert (0 <= x <= 1) by (apply H; left; auto).
  assert (0 <= fold_right Rmult 1 l <= 1) by (apply IH; intros; apply H; right; auto). nra.
Qed.

(** ** C23 *)
Lemma over_mics_In : forall r f e, In e (over_mics r f) <->
  exists k mic, nth_error (r_mics r) k = Some mic /\ f k mic = Some e.
Proof.
  intros r f e. unfold over_mics. rewrite in_flat_map. split.
  - intros ([k mic] & H1 & H2). simpl in H2.
    assert (N : nth_error (r_mics r) k = Some mic).
    { clear H2. revert H1. generalize (r_mics r) as l. intros l H.
      assert (G : forall n, In (k, mic) (combine (seq n (length l)) l) -> (n <= k)%nat /\ nth_error l (k - n) = Some mic).
      { clear H. induction l as [|a l IH]; intros n H; simpl in H; [destruct H|].
        destruct H as [H|H].
        - injection H as <- <-. split; [lia|]. now rewrite Nat.sub_diag.
        - destruct (IH (S n) H) as [G1 G2]. split; [lia|]. replace (k - n)%nat with (S (k - S n)) by lia. exact G2. }
      destruct (G 0%nat H) as [_ G']. now rewrite Nat.sub_0_r in G'. }
    exists k, mic. split; [exact N|]. destruct (f k mic) as [e'|]; simpl in H2; [|destruct H2].
    destruct H2 as [->|[]]; auto.
  - intros (k & mic & N & E). exists (k, mic). split; [|simpl; rewrite E; left; auto].
    revert k N E. generalize (r_mics r) as l. intros l k N _.
    assert (G : forall n, In ((n + k)%nat, mic) (combine (seq n (length l)) l)).
    { revert k N. induction l as [|a l IH]; intros k N n; [destruct k; discriminate|].
      destruct k as [|k]; simpl in *.
      - injection N as <-. left. f_equal. lia.
      - right. replace (n + S k)%nat with (S n + k)%nat by lia. apply IH. exact N. }
    exact (G 0%nat).
Qed.

Lemma cap_fraction_sq : forall rad r, 0 < rad -> 0 <= r ->
  hit_probability rad (r * r) = cap_fraction rad r.
Proof.
  intros rad r Hr H0. unfold hit_probability, cap_fraction. destruct (Rle_dec r rad) as [H|H].
  - rewrite Rmax_left by nra. replace (rad * rad / (rad * rad)) with 1 by (field; lra).
    replace (1 - 1) with 0 by ring. rewrite sqrt_0. ring.
  - rewrite Rmax_right by nra. rewrite cos_asin.
    2:{ assert (0 < rad / r) by (apply Rdiv_lt_0_compat; lra).
        assert (rad / r <= 1) by (apply Rmult_le_reg_r with r; [lra|]; unfold Rdiv; rewrite Rmult_assoc, Rinv_l by lra; lra). lra. }
    f_equal. f_equal. f_equal. unfold Rsqr. field. lra.
Qed.

Lemma cap_fraction_range : forall rad r, 0 < rad -> 0 < cap_fraction rad r <= 1.
Proof.
  intros rad r Hr. unfold cap_fraction. destruct (Rle_dec r rad) as [H|H]; [lra|].
  assert (0 < rad / r < 1).
  { split; [apply Rdiv_lt_0_compat; lra|]. apply Rmult_lt_reg_r with r; [lra|]. unfold Rdiv. rewrite Rmult_assoc, Rinv_l by lra. lra. }
  rewrite cos_asin by lra. set (x := rad / r) in *.
  assert (0 <= sqrt (1 - x²)) by apply sqrt_pos.
  assert (sqrt (1 - x²) < 1).
  { rewrite <- sqrt_1 at 2. apply sqrt_lt_1_alt. unfold Rsqr. nra. }
  lra.
Qed.

Lemma spec_entry_iff : forall r eps s hd k mic e,
  length (ry_start s) = length mic -> length (ry_dir s) = length mic ->
  (spec_entry r eps s hd k mic = Some e <->
   let t := dot (vminus mic (ry_start s)) (ry_dir s) in
   - eps < t < hd + eps /\
   vdist mic (vadd (ry_start s) (vscal t (ry_dir s))) < r_radius r + eps /\
   e_mic e = k /\ e_travel e = ry_travel s + Rabs t /\ e_origin e = ry_start s /\
   e_energy e = map (fun x => x / (e_travel e * e_travel e * hit_probability (r_radius r) (e_travel e * e_travel e))) (ry_trans s)).
Proof.
  intros r eps s hd k mic e L1 L2. unfold spec_entry. cbv zeta.
  set (t := dot _ _).
  assert (V : vminus (vminus mic (ry_start s)) (vscal t (ry_dir s)) = vminus mic (vadd (ry_start s) (vscal t (ry_dir s)))) by vring.
  rewrite V. fold (vdist mic (vadd (ry_start s) (vscal t (ry_dir s)))).
  destruct (Rltb (- eps) t && Rltb t (hd + eps) && Rltb (vdist mic (vadd (ry_start s) (vscal t (ry_dir s)))) (r_radius r + eps)) eqn:C.
  - apply andb_true_iff in C. destruct C as [C C3]. apply andb_true_iff in C. destruct C as [C1 C2].
    apply Rltb_true in C1. apply Rltb_true in C2. apply Rltb_true in C3.
    split.
    + intros [= <-]. simpl. repeat split; auto.
    + intros (_ & _ & E1 & E2 & E3 & E4). destruct e as [em et ee eo]. simpl in *. subst. reflexivity.
  - split; [discriminate|]. intros (C1 & C2 & _). exfalso.
    assert (Rltb (- eps) t && Rltb t (hd + eps) && Rltb (vdist mic (vadd (ry_start s) (vscal t (ry_dir s)))) (r_radius r + eps) = true).
    { rewrite !andb_true_iff, !Rltb_true. lra. }
    congruence.
Qed.

Lemma map_ext_nth : forall (f g : R -> R) l b, (b < length l)%nat -> nth b (map f l) 0 = f (nth b l 0).
Proof.
  intros f g l b H. rewrite (nth_indep _ 0 (f 0)) by (rewrite map_length; auto). apply map_nth.
Qed.

Lemma scat_entry_iff : forall r eps w trans prev hp travel k mic e,
  (scat_entry r eps w trans prev hp travel k mic = Some e <->
   let hop := vdist mic hp in
   let arriving := map2 (fun s t => s * t * hit_probability (r_radius r) (hop * hop)
                                      * (2 * Rabs (cosine_angle w (vminus mic hp)))) (w_scat w) trans in
   side eps w mic = side eps w prev /\
   (r_shoebox r = None -> next_wall_hit r eps hp mic true = None) /\
   e_mic e = k /\ e_travel e = travel + hop /\ e_origin e = hp /\
   e_travel e < r_tthres r * r_speed r /\ r_ethres r < list_max arriving /\
   e_energy e = map (fun x => x / (e_travel e * e_travel e * hit_probability (r_radius r) (e_travel e * e_travel e))) arriving).
Proof.
  intros r eps w trans prev hp travel k mic e. unfold scat_entry. cbv zeta.
  destruct (Z.eqb_spec (side eps w mic) (side eps w prev)) as [Hs|Hs]; simpl.
  2:{ split; [discriminate|]. intros (H & _). contradiction. }
  destruct (match r_shoebox r with Some _ => false | None => _ end) eqn:B.
  { split; [discriminate|]. intros (_ & H & _). destruct (r_shoebox r); [discriminate|].
    rewrite H in B by auto. discriminate. }
  assert (Nb : r_shoebox r = None -> next_wall_hit r eps hp mic true = None).
  { intros E. rewrite E in B. destruct (next_wall_hit r eps hp mic true); [discriminate|auto]. }
  fold (vdist mic hp).
  destruct (Rltb (travel + vdist mic hp) _ && _) eqn:C.
  - apply andb_true_iff in C. destruct C as [C1 C2]. apply Rltb_true in C1. apply Rltb_true in C2.
    split.
    + intros [= <-]. simpl. repeat split; auto.
    + intros (_ & _ & E1 & E2 & E3 & _ & _ & E4). destruct e as [em et ee eo]. simpl in *. subst. reflexivity.
  - split; [discriminate|]. intros (_ & _ & _ & E2 & _ & C1 & C2 & _). exfalso. rewrite E2 in C1.
    apply andb_false_iff in C. destruct C as [C|C]; apply Rltb_false in C; lra.
Qed.

Lemma hop_spec_In : forall r eps et lamb s h, ray_step r eps et lamb s = Some h ->
  forall e, In e (hp_spec h) <->
    (r_hybrid r = true -> (r_ism_order r <= ry_count s)%Z) /\
    exists k mic, nth_error (r_mics r) k = Some mic /\ spec_entry r eps s (h_dist (hp_hit h)) k mic = Some e.
Proof.
  intros r eps et lamb s h H e. unfold ray_step in H.
  destruct (next_wall_hit _ _ _ _ _) as [h0|]; [|discriminate]. injection H as <-. simpl.
  destruct (r_hybrid r); simpl.
  - destruct (Z.ltb_spec (ry_count s) (r_ism_order r)).
    + split; [intros []|]. intros [A _]. specialize (A eq_refl). lia.
    + rewrite over_mics_In. split; [intros A; split; [intros _; lia|exact A]|tauto].
  - rewrite over_mics_In. split; [intros A; split; [discriminate|exact A]|tauto].
Qed.

Lemma hop_scat_In : forall r eps et lamb s h, ray_step r eps et lamb s = Some h ->
  forall e, In e (hp_scat h) <->
    let w := get_wall r (h_wall (hp_hit h)) in does_scatter w = true /\
    exists k mic, nth_error (r_mics r) k = Some mic /\
    scat_entry r eps w (ry_trans (hp_after h)) (ry_start s) (h_pt (hp_hit h)) (ry_travel (hp_after h)) k mic = Some e.
Proof.
  intros r eps et lamb s h H e. unfold ray_step in H.
  destruct (next_wall_hit _ _ _ _ _) as [h0|]; [|discriminate]. injection H as <-. simpl.
  destruct (does_scatter _).
  - rewrite over_mics_In. tauto.
  - split; [intros []|]. intros [A _]; discriminate.
Qed.
