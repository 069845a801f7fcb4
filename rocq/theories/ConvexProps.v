(** C142: the walls that can stand between two points of a room. *)
From Coq Require Import Reals List ZArith Lia Lra Bool.
From Verif Require Import Base Vec GeometryModel GeometrySpec GeometryProofs ConvexModel BaseProofs.
Import ListNotations.
Local Open Scope R_scope.

(** ** Specification *)
Definition co (p : vec) (d : nat) : R := nth d p 0.
(** the signed area or volume spanned by a facet and a point: zero on the line or plane of the facet, of one sign on either side *)
Definition det2 (a b p : vec) : R := (co b 0 - co a 0) * (co p 1 - co a 1) - (co p 0 - co a 0) * (co b 1 - co a 1).
Definition det3 (a b c p : vec) : R :=
  let u d := co b d - co a d in let v d := co c d - co a d in let w d := co p d - co a d in
  (u 1%nat * v 2%nat - u 2%nat * v 1%nat) * w 0%nat + (u 2%nat * v 0%nat - u 0%nat * v 2%nat) * w 1%nat + (u 0%nat * v 1%nat - u 1%nat * v 0%nat) * w 2%nat.
Definition level (dim : nat) (pts : list vec) (s : list nat) (p : vec) : R :=
  let q k := nth (nth k s 0%nat) pts [] in if Nat.eqb dim 2 then det2 (q 0%nat) (q 1%nat) p else det3 (q 0%nat) (q 1%nat) (q 2%nat) p.
(** all points are on one side of the facet *)
Definition supports (dim : nat) (pts : list vec) (s : list nat) : Prop := (forall x, In x pts -> level dim pts s x <= 0) \/ (forall x, In x pts -> 0 <= level dim pts s x).
(** the convex combinations of some points *)
Definition spanned (dim : nat) (pts : list vec) (p : vec) : Prop := length p = dim /\ exists w, length w = length pts /\ (forall k, In k w -> 0 <= k) /\ Rsum w = 1 /\ forall d, (d < dim)%nat -> co p d = Rsum (map2 (fun k x => k * co x d) w pts).
Definition tolerance (lib_eps eps : R) (dim : nat) : R := if Nat.eqb dim 2 then lib_eps else eps.
(** a room: at least two walls with corners, and the corners of the first wall belong to other walls too *)
Definition room_walls (dim : nat) (walls : list (list vec)) : Prop :=
  (2 <= length walls)%nat /\ (forall w, In w walls -> w <> [] /\ forall c, In c w -> length c = dim) /\ forall c, In c (hd [] walls) -> In c (concat (tl walls)).

(** ** Lemmas *)
Lemma level_affine dim pts s : dim = 2%nat \/ dim = 3%nat -> exists a b, forall p, level dim pts s p = Rsum (map (fun d => a d * co p d) (seq 0 dim)) + b.
Proof.
  intros [-> | ->]; unfold level; cbn [Nat.eqb].
  - set (q0 := nth (nth 0 s 0%nat) pts []); set (q1 := nth (nth 1 s 0%nat) pts []). exists (fun d => match d with 0%nat => - (co q1 1 - co q0 1) | _ => co q1 0 - co q0 0 end), (- ((co q1 0 - co q0 0) * co q0 1) + co q0 0 * (co q1 1 - co q0 1)). intros p. cbn [seq map Rsum fold_right]. unfold det2. ring.
  - set (a := nth (nth 0 s 0%nat) pts []); set (b := nth (nth 1 s 0%nat) pts []); set (c := nth (nth 2 s 0%nat) pts []).
    set (n := fun d => match d with 0%nat => (co b 1 - co a 1) * (co c 2 - co a 2) - (co b 2 - co a 2) * (co c 1 - co a 1) | 1%nat => (co b 2 - co a 2) * (co c 0 - co a 0) - (co b 0 - co a 0) * (co c 2 - co a 2) | _ => (co b 0 - co a 0) * (co c 1 - co a 1) - (co b 1 - co a 1) * (co c 0 - co a 0) end).
    exists n, (- (n 0%nat * co a 0 + n 1%nat * co a 1 + n 2%nat * co a 2)). intros p. cbn [seq map Rsum fold_right]. unfold det3, n. ring.
Qed.
Lemma Rsum_cons a l : Rsum (a :: l) = a + Rsum l.
Proof. reflexivity. Qed.
Lemma swap_sum (a : nat -> R) ds : forall w (pts : list vec), Rsum (map (fun d => a d * Rsum (map2 (fun k x => k * co x d) w pts)) ds) = Rsum (map2 (fun k x => k * Rsum (map (fun d => a d * co x d) ds)) w pts).
Proof.
  assert (Z0 : Rsum (map (fun d => a d * Rsum []) ds) = Rsum []) by (induction ds as [|d ds IH]; cbn [map]; [reflexivity|]; rewrite Rsum_cons, IH; cbn; ring).
  induction w as [|k w IH]; intros [|x pts]; cbn [map2]; try exact Z0.
  rewrite Rsum_cons, <- IH. clear. induction ds as [|d ds IH]; cbn [map]; [cbn; ring|]. rewrite !Rsum_cons in *. rewrite IH. ring.
Qed.
Lemma level_spanned dim pts s X p w : dim = 2%nat \/ dim = 3%nat -> length w = length X -> Rsum w = 1 -> (forall d, (d < dim)%nat -> co p d = Rsum (map2 (fun k x => k * co x d) w X)) ->
  level dim pts s p = Rsum (map2 (fun k x => k * level dim pts s x) w X).
Proof.
  intros Hd HL H1 H. destruct (level_affine dim pts s Hd) as (a & b & A). rewrite A. rewrite (map_ext_in _ (fun d => a d * Rsum (map2 (fun k x => k * co x d) w X))) by (intros d Hd'; apply in_seq in Hd'; rewrite H by lia; reflexivity). rewrite swap_sum.
  assert (G : forall w X, length w = length X -> Rsum (map2 (fun k x => k * level dim pts s x) w X) = Rsum (map2 (fun k x => k * Rsum (map (fun d => a d * co x d) (seq 0 dim))) w X) + Rsum w * b).
  { clear - A. induction w as [|k w IH]; intros [|x X] HL; try discriminate; [cbn; ring|]. cbn [map2]. rewrite !Rsum_cons, IH by now inversion HL. rewrite A. ring. }
  rewrite G by auto. rewrite H1. ring.
Qed.
Lemma level_centroid dim pts s w : dim = 2%nat \/ dim = 3%nat -> w <> [] -> level dim pts s (centroid dim w) * INR (length w) = Rsum (map (level dim pts s) w).
Proof.
  intros Hd Hw. assert (N : INR (length w) <> 0) by (apply not_0_INR; destruct w; [contradiction|discriminate]). destruct (level_affine dim pts s Hd) as (a & b & A). rewrite A.
  assert (G : forall l, Rsum (map (level dim pts s) l) = Rsum (map (fun d => a d * Rsum (map (fun c => nth d c 0) l)) (seq 0 dim)) + b * INR (length l)).
  { clear - A Hd. induction l as [|x l IH]; [destruct Hd as [-> | ->]; cbn; ring|]. cbn [map length]. rewrite Rsum_cons, IH, A, S_INR. destruct Hd as [-> | ->]; cbn [seq map]; rewrite !Rsum_cons; unfold co; cbn [Rsum fold_right]; ring. }
  rewrite G. unfold centroid, co. destruct Hd as [-> | ->]; cbn [seq map nth]; rewrite !Rsum_cons; cbn [Rsum fold_right]; field; auto.
Qed.
Lemma list3 (l : vec) : length l = 3%nat -> l = [co l 0; co l 1; co l 2].
Proof. destruct l as [|a [|b [|c [|d l]]]]; try discriminate. reflexivity. Qed.
Lemma on_facet_level lib_eps eps dim X p s : dim = 2%nat \/ dim = 3%nat -> 0 < lib_eps -> length p = dim -> (forall x, In x X -> length x = dim) -> length s = dim -> (forall j, In j s -> (j < length X)%nat) ->
  on_facet lib_eps eps X p s = true <-> Rabs (level dim X s p) < tolerance lib_eps eps dim.
Proof.
  intros Hd He HL HX Hs Hj. unfold on_facet, level, tolerance. rewrite HL. destruct Hd as [-> | ->]; cbn [Nat.eqb].
  - rewrite Z.eqb_eq, ccw3p_tri, tri_0 by auto. unfold orient, det2, to2, co, GeometryModel.X, GeometryModel.Y. cbn [fst snd]. set (e := _ - _ * _). match goal with |- _ < ?b < _ <-> Rabs ?a < _ => replace b with a by (unfold e; ring) end. split; intros; [now apply Rabs_def1|now apply Rabs_def2 in H].
  - rewrite Rltb_true. assert (P : forall k, (k < 3)%nat -> length (nth (nth k s 0%nat) X []) = 3%nat) by (intros k Hk; apply HX, nth_In, Hj, nth_In; lia). pose proof (list3 _ (P 0%nat ltac:(lia))) as E0. pose proof (list3 _ (P 1%nat ltac:(lia))) as E1. pose proof (list3 _ (P 2%nat ltac:(lia))) as E2.
    set (a := nth (nth 0 s 0%nat) X []) in *. set (b := nth (nth 1 s 0%nat) X []) in *. set (c := nth (nth 2 s 0%nat) X []) in *. match goal with |- Rabs ?u < _ <-> Rabs ?v < _ => assert (Q : u = v); [|rewrite Q; reflexivity] end. rewrite (list3 p HL). rewrite E0, E1, E2. unfold vminus, dot, det3, co. cbn. ring.
Qed.
Lemma sum_one_sign (l : list R) B : (forall x, In x l -> 0 <= x) -> Rsum l < B -> forall x, In x l -> x < B.
Proof. induction l as [|a l IH]; intros H HB x Hx; [easy|]. rewrite Rsum_cons in HB. assert (0 <= Rsum l) by (clear - H; induction l as [|b l IH]; [cbn; lra|]; rewrite Rsum_cons; assert (0 <= b) by (apply H; right; now left); assert (0 <= Rsum l) by (apply IH; intros x [<-|Hx]; apply H; [now left|right; now right]); lra). assert (0 <= a) by (apply H; now left). destruct Hx as [<-|Hx]; [lra|]. apply IH; auto; [intros; apply H; now right|lra]. Qed.
Lemma Rsum_opp l : Rsum (map Ropp l) = - Rsum l.
Proof. induction l as [|a l IH]; cbn [map]; [cbn; ring|]. rewrite !Rsum_cons, IH. ring. Qed.
Lemma filter_seq n f i : In i (filter f (seq 0 n)) <-> (i < n)%nat /\ f i = true.
Proof. rewrite filter_In, in_seq. intuition lia. Qed.
Lemma big_one {A} (g : A -> R) t : forall w, w <> [] -> INR (length w) * t <= Rsum (map g w) -> exists c, In c w /\ t <= g c.
Proof.
  induction w as [|a w IH]; intros NE H; [contradiction|]. cbn [map length] in H. rewrite Rsum_cons, S_INR in H. destruct (Rle_lt_dec t (g a)) as [Q|Q]; [exists a; split; [now left|auto]|]. destruct w as [|b w]; [cbn in H; lra|]. destruct IH as (c & Hc & T); [discriminate|lra|]. exists c. split; [now right|auto].
Qed.

Section Hull.
Variables (hull : list vec -> option (list (list nat))) (lib_eps eps : R) (dim : nat) (walls : list (list vec)) (simplices : list (list nat)).
Hypothesis Hdim : dim = 2%nat \/ dim = 3%nat.
Hypothesis Hlib : 0 < lib_eps.
Hypothesis Heps : 0 < eps.
Hypothesis Hroom : room_walls dim walls.
Hypothesis Hhull : hull (concat (tl walls)) = Some simplices.
(** what scipy promises: the facets have corners among the points, and all points are on one side of each *)
Hypothesis Hfacet : forall s, In s simplices -> length s = dim /\ (forall j, In j s -> (j < length (concat (tl walls)))%nat) /\ supports dim (concat (tl walls)) s.
Let X := concat (tl walls).
Let tol := tolerance lib_eps eps dim.

Lemma X_ne : X <> [].
Proof. destruct Hroom as (A & B & _). unfold X. destruct walls as [|w [|w2 t]]; cbn in A; try lia. cbn. destruct (B w2) as [N _]; [right; now left|]. destruct w2; [contradiction|discriminate]. Qed.
Lemma X_len x : In x X -> length x = dim.
Proof. intros H. apply in_concat in H. destruct H as (w & Hw & Hx). destruct Hroom as (_ & B & _). apply (B w); auto. destruct walls; [easy|right; exact Hw]. Qed.
Lemma corner_X w c : In w walls -> In c w -> In c X.
Proof. intros Hw Hc. destruct Hroom as (A & B & C). unfold X. destruct walls as [|w0 t]; [easy|]. cbn [tl hd] in *. destruct Hw as [<-|Hw]; [now apply C|]. apply in_concat. eauto. Qed.
Lemma tol_pos : 0 < tol.
Proof. unfold tol, tolerance. destruct (Nat.eqb dim 2); auto. Qed.
Lemma cent_len w : length (centroid dim w) = dim.
Proof. unfold centroid. now rewrite map_length, seq_length. Qed.
Lemma find_spec : exists l, find_non_convex_walls hull lib_eps eps dim walls = Some l /\
  forall i, In i l <-> (i < length walls)%nat /\ forall s, In s simplices -> tol <= Rabs (level dim X s (centroid dim (nth i walls []))).
Proof.
  unfold find_non_convex_walls, all_corners. pose proof X_ne as NE. fold X. fold X in Hhull. rewrite Hhull. destruct X as [|x0 X0] eqn:EX; [contradiction|]. rewrite <- EX in *. cbn [bind]. eexists. split; [reflexivity|]. intros i. rewrite filter_seq. split; intros [Hi H]; split; auto.
  - intros s Hs. apply negb_true_iff in H. set (f := fun w => _) in H. rewrite (nth_indep _ false (f [])) in H by now rewrite map_length. rewrite map_nth in H. unfold f in H. destruct (Rle_lt_dec tol (Rabs (level dim X s (centroid dim (nth i walls []))))) as [Q|Q]; [exact Q|]. exfalso.
    assert (T : existsb (on_facet lib_eps eps X (centroid dim (nth i walls []))) simplices = true); [|congruence]. apply existsb_exists. exists s. split; [auto|]. destruct (Hfacet s Hs) as (A & B & _). apply (on_facet_level lib_eps eps dim); auto; [apply cent_len|exact X_len].
  - apply negb_true_iff. set (f := fun w => _). rewrite (nth_indep _ false (f [])) by now rewrite map_length. rewrite map_nth. unfold f. apply not_true_iff_false. intros T. apply existsb_exists in T. destruct T as (s & Hs & T). destruct (Hfacet s Hs) as (A & B & _). apply (on_facet_level lib_eps eps dim) in T; auto; [|apply cent_len|exact X_len]. specialize (H s Hs). fold tol in T. lra.
Qed.
Lemma abs_centroid s w : In s simplices -> In w walls -> (Rabs (level dim X s (centroid dim w)) * INR (length w) = Rsum (map (fun c => Rabs (level dim X s c)) w)).
Proof.
  intros Hs Hw. destruct Hroom as (_ & B & _). destruct (B w Hw) as [NE _]. destruct (Hfacet s Hs) as (_ & _ & SUP). rewrite <- (Rabs_right (INR (length w))) at 1 by (apply Rle_ge, pos_INR). rewrite <- Rabs_mult, level_centroid by auto.
  assert (NN : forall l, (forall x, In x l -> 0 <= x) -> 0 <= Rsum l) by (induction l as [|a l IH]; intros H; [cbn; lra|]; rewrite Rsum_cons; assert (0 <= a) by (apply H; now left); assert (0 <= Rsum l) by (apply IH; intros; apply H; now right); lra).
  destruct SUP as [SU|SU].
  - rewrite (map_ext_in (fun c => Rabs (level dim X s c)) (fun c => - level dim X s c)) by (intros c Hc; apply Rabs_left1, SU, (corner_X w); auto). rewrite <- (map_map (level dim X s) Ropp), Rsum_opp. apply Rabs_left1. assert (Q : 0 <= Rsum (map Ropp (map (level dim X s) w))); [|rewrite Rsum_opp in Q; lra]. apply NN. intros x Hx. rewrite map_map in Hx. apply in_map_iff in Hx. destruct Hx as (c & <- & Hc). assert (level dim X s c <= 0) by (apply SU, (corner_X w); auto). lra.
  - rewrite (map_ext_in (fun c => Rabs (level dim X s c)) (level dim X s)) by (intros c Hc; apply Rabs_right, Rle_ge, SU, (corner_X w); auto). apply Rabs_right, Rle_ge, NN. intros x Hx. apply in_map_iff in Hx. destruct Hx as (c & <- & Hc). apply SU, (corner_X w); auto.
Qed.
(** A wall is returned only when every facet of the hull is away from one of its corners; a wall that is not returned has all its
    corners on a facet, up to its number of corners times the tolerance. *)
Theorem C142_walls : exists l, find_non_convex_walls hull lib_eps eps dim walls = Some l /\ forall i, (i < length walls)%nat -> let w := nth i walls [] in
  (In i l -> forall s, In s simplices -> exists c, In c w /\ tol <= Rabs (level dim X s c)) /\
  (~ In i l -> exists s, In s simplices /\ forall c, In c w -> Rabs (level dim X s c) < INR (length w) * tol).
Proof.
  destruct find_spec as (l & E & H). exists l. split; [exact E|]. intros i Hi w. assert (Hw : In w walls) by now apply nth_In. assert (NE : w <> []) by (destruct Hroom as (_ & B & _); now apply (B w)). assert (N : 0 < INR (length w)) by (apply lt_0_INR; destruct w; [contradiction|cbn; lia]). split.
  - intros HI s Hs. apply H in HI. destruct HI as [_ HI]. specialize (HI s Hs). fold w in HI. pose proof (abs_centroid s w Hs Hw) as A. apply (big_one (fun c => Rabs (level dim X s c))); [exact NE|]. rewrite <- A. nra.
  - intros HI. assert (Q : exists s, In s simplices /\ Rabs (level dim X s (centroid dim w)) < tol).
    { destruct (existsb (on_facet lib_eps eps X (centroid dim w)) simplices) eqn:T.
      - apply existsb_exists in T. destruct T as (s & Hs & T). destruct (Hfacet s Hs) as (A & B & _). exists s. split; [auto|]. apply (on_facet_level lib_eps eps dim) in T; auto; [apply cent_len|exact X_len].
      - exfalso. apply HI, H. split; [auto|]. intros s Hs. fold w. destruct (Rle_lt_dec tol (Rabs (level dim X s (centroid dim w)))) as [Q|Q]; [exact Q|]. assert (existsb (on_facet lib_eps eps X (centroid dim w)) simplices = true); [|congruence]. apply existsb_exists. exists s. split; [auto|]. destruct (Hfacet s Hs) as (A & B & _). apply (on_facet_level lib_eps eps dim); auto; [apply cent_len|exact X_len]. }
    destruct Q as (s & Hs & Q). exists s. split; [auto|]. intros c Hc. pose proof (abs_centroid s w Hs Hw) as A. apply (sum_one_sign (map (fun c => Rabs (level dim X s c)) w)); [intros x Hx; apply in_map_iff in Hx; destruct Hx as (? & <- & _); apply Rabs_pos| |now apply (in_map (fun c => Rabs (level dim X s c)))]. rewrite <- A. nra.
Qed.
(** When centroids are either exactly on a facet or away from it by the tolerance, the walls returned are exactly those in no facet. *)
Hypothesis Hmargin : forall s w, In s simplices -> In w walls -> level dim X s (centroid dim w) = 0 \/ tol <= Rabs (level dim X s (centroid dim w)).
Theorem C142_walls_exact : exists l, find_non_convex_walls hull lib_eps eps dim walls = Some l /\ NoDup l /\
  forall i, In i l <-> (i < length walls)%nat /\ ~ exists s, In s simplices /\ forall c, In c (nth i walls []) -> level dim X s c = 0.
Proof.
  destruct find_spec as (l & E & H). exists l. split; [exact E|]. split.
  - unfold find_non_convex_walls in E. cbv zeta in E. destruct (all_corners walls) as [|v X']; [discriminate|]. destruct (hull (v :: X')); [|discriminate]. cbn [bind] in E. injection E as <-. apply NoDup_filter, seq_NoDup.
  - intros i. rewrite H. split; intros [Hi Q]; split; auto.
    + intros (s & Hs & Z). specialize (Q s Hs). assert (Hw : In (nth i walls []) walls) by now apply nth_In. assert (NE : nth i walls [] <> []) by (destruct Hroom as (_ & B & _); now apply (B _ Hw)). pose proof (level_centroid dim X s _ Hdim NE) as A. rewrite (map_ext_in _ (fun _ => 0)) in A by (intros c Hc; now apply Z). assert (N : 0 < INR (length (nth i walls []))) by (apply lt_0_INR; destruct (nth i walls []); [contradiction|cbn; lia]).
      assert (Z0 : forall l : list vec, Rsum (map (fun _ => 0) l) = 0) by (induction l0 as [|a l0 IH]; [reflexivity|]; cbn [map]; rewrite Rsum_cons, IH; ring). rewrite Z0 in A. apply Rmult_integral in A. destruct A as [A|A]; [|lra]. rewrite A, Rabs_R0 in Q. pose proof tol_pos. lra.
    + intros s Hs. assert (Hw : In (nth i walls []) walls) by now apply nth_In. destruct (Hmargin s _ Hs Hw) as [Z|Z]; [|exact Z]. exfalso. apply Q. exists s. split; [auto|]. intros c Hc. pose proof (abs_centroid s _ Hs Hw) as A. rewrite Z, Rabs_R0, Rmult_0_l in A.
      destruct (Req_dec (level dim X s c) 0) as [G|G]; [exact G|]. exfalso. assert (B : Rabs (level dim X s c) < Rabs (level dim X s c)); [|lra]. apply (sum_one_sign (map (fun c => Rabs (level dim X s c)) (nth i walls []))); [intros x Hx; apply in_map_iff in Hx; destruct Hx as (? & <- & _); apply Rabs_pos| |now apply (in_map (fun c => Rabs (level dim X s c)))]. rewrite <- A. now apply Rabs_pos_lt.
Qed.
(** a convex combination of points with levels of one sign *)
Lemma spanned_sign s Y p (sg : R) : spanned dim Y p -> (forall x, In x Y -> 0 <= sg * level dim X s x) -> 0 <= sg * level dim X s p.
Proof.
  intros (HL & w & LW & PW & SW & CO) H. rewrite (level_spanned dim X s Y p w Hdim LW SW CO). clear - LW PW H. revert w LW PW. induction Y as [|x Y IH]; intros [|k w] LW PW; try discriminate; [cbn; lra|]. cbn [map2]. rewrite Rsum_cons. assert (0 <= k) by (apply PW; now left). assert (0 <= sg * level dim X s x) by (apply H; now left). specialize (IH (fun y Hy => H y (or_intror Hy)) w ltac:(now inversion LW) (fun j Hj => PW j (or_intror Hj))). nra.
Qed.
(** A wall that is not returned cannot stand between two points of the room: when a segment between two points of the hull of the
    corners meets the wall on its way, the segment lies in the plane of the wall. *)
Theorem C142_unobstructed : forall l i p q t z, find_non_convex_walls hull lib_eps eps dim walls = Some l -> (i < length walls)%nat -> ~ In i l ->
  spanned dim X p -> spanned dim X q -> 0 < t < 1 -> (forall d, (d < dim)%nat -> co z d = co p d + t * (co q d - co p d)) -> spanned dim (nth i walls []) z ->
  exists s, In s simplices /\ (forall c, In c (nth i walls []) -> level dim X s c = 0) /\ level dim X s p = 0 /\ level dim X s q = 0.
Proof.
  intros l i p q t z E Hi HI Hp Hq Ht Hz Hw. destruct C142_walls_exact as (l' & E' & _ & H). rewrite E in E'. injection E' as <-.
  assert (Q : exists s, In s simplices /\ forall c, In c (nth i walls []) -> level dim X s c = 0).
  { destruct find_spec as (l' & E' & F). rewrite E in E'. injection E' as <-. destruct C142_walls as (l' & E' & G). rewrite E in E'. injection E' as <-. destruct (G i Hi) as [_ G2]. clear G.
    assert (Hww : In (nth i walls []) walls) by now apply nth_In.
    destruct (existsb (on_facet lib_eps eps X (centroid dim (nth i walls []))) simplices) eqn:T.
    - apply existsb_exists in T. destruct T as (s & Hs & T). exists s. split; [auto|]. destruct (Hfacet s Hs) as (A & B & _). apply (on_facet_level lib_eps eps dim) in T; auto; [|apply cent_len|exact X_len]. destruct (Hmargin s _ Hs Hww) as [Z|Z]; [|fold tol in T; lra]. intros c Hc. pose proof (abs_centroid s _ Hs Hww) as AB. rewrite Z, Rabs_R0, Rmult_0_l in AB.
      destruct (Req_dec (level dim X s c) 0) as [J|J]; [exact J|]. exfalso. assert (Bb : Rabs (level dim X s c) < Rabs (level dim X s c)); [|lra]. apply (sum_one_sign (map (fun c => Rabs (level dim X s c)) (nth i walls []))); [intros x Hx; apply in_map_iff in Hx; destruct Hx as (? & <- & _); apply Rabs_pos| |now apply (in_map (fun c => Rabs (level dim X s c)))]. rewrite <- AB. now apply Rabs_pos_lt.
    - exfalso. apply HI, F. split; [auto|]. intros s Hs. destruct (Rle_lt_dec tol (Rabs (level dim X s (centroid dim (nth i walls []))))) as [Q|Q]; [exact Q|]. assert (existsb (on_facet lib_eps eps X (centroid dim (nth i walls []))) simplices = true); [|congruence]. apply existsb_exists. exists s. split; [auto|]. destruct (Hfacet s Hs) as (A & B & _). apply (on_facet_level lib_eps eps dim); auto; [apply cent_len|exact X_len]. }
  destruct Q as (s & Hs & Z). exists s. split; [auto|]. split; [auto|].
  assert (LZ : level dim X s z = 0). { assert (0 <= 1 * level dim X s z) by (apply (spanned_sign s (nth i walls [])); auto; intros x Hx; rewrite Z by auto; lra). assert (0 <= -1 * level dim X s z) by (apply (spanned_sign s (nth i walls [])); auto; intros x Hx; rewrite Z by auto; lra). lra. }
  assert (LC : level dim X s z = level dim X s p + t * (level dim X s q - level dim X s p)).
  { destruct (level_affine dim X s Hdim) as (a & b & A). rewrite !A. rewrite (map_ext_in (fun d => a d * co z d) (fun d => a d * (co p d + t * (co q d - co p d)))) by (intros d Hd; apply in_seq in Hd; rewrite Hz by lia; reflexivity). destruct Hdim as [-> | ->]; cbn [seq map]; rewrite !Rsum_cons; cbn [Rsum fold_right]; ring. }
  destruct (Hfacet s Hs) as (_ & _ & [SU|SU]).
  - assert (0 <= -1 * level dim X s p) by (apply (spanned_sign s X); auto; intros x Hx; specialize (SU x Hx); fold X in SU; lra). assert (0 <= -1 * level dim X s q) by (apply (spanned_sign s X); auto; intros x Hx; specialize (SU x Hx); fold X in SU; lra). split; nra.
  - assert (0 <= 1 * level dim X s p) by (apply (spanned_sign s X); auto; intros x Hx; specialize (SU x Hx); fold X in SU; lra). assert (0 <= 1 * level dim X s q) by (apply (spanned_sign s X); auto; intros x Hx; specialize (SU x Hx); fold X in SU; lra). split; nra.
Qed.
End Hull.
Print Assumptions C142_walls.
Print Assumptions C142_walls_exact.
Print Assumptions C142_unobstructed.
(** ** An L-shaped room in two sizes *)
Definition ell (k : R) : list (list vec) :=
  let A := [0; 0] in let B := [3 * k; 0] in let C := [3 * k; k] in let D := [k; k] in let E := [k; 3 * k] in let F := [0; 3 * k] in
  [[A; B]; [B; C]; [C; D]; [D; E]; [E; F]; [F; A]].
(** the edges of its hull, which cuts the corner off *)
Definition ell_hull (X : list vec) : option (list (list nat)) := Some [[9; 0]; [0; 1]; [1; 5]; [5; 7]; [7; 9]]%nat.
Lemma ell_room k : room_walls 2 (ell k).
Proof. unfold room_walls, ell. split; [cbn; lia|]. split; [|intros c Hc; cbn in *; tauto]. intros w Hw. cbn in Hw. repeat (destruct Hw as [<-|Hw]; [split; [discriminate|]; intros c Hc; cbn in Hc; repeat (destruct Hc as [<-|Hc]; [reflexivity|]); easy|]). easy. Qed.
Lemma ell_facets k : 0 < k -> forall s, In s [[9; 0]; [0; 1]; [1; 5]; [5; 7]; [7; 9]]%nat -> length s = 2%nat /\ (forall j, In j s -> (j < length (concat (tl (ell k))))%nat) /\ supports 2 (concat (tl (ell k))) s.
Proof.
  intros Hk s Hs. cbn in Hs. repeat (destruct Hs as [<-|Hs]; [split; [reflexivity|]; split; [intros j Hj; cbn in *; lia|]; right; intros x Hx; cbn in Hx; repeat (destruct Hx as [<-|Hx]; [unfold level, det2, co; cbn; nra|]); easy|]). easy.
Qed.
(** At metre scale the two walls of the inner corner are found. *)
Lemma ell_inner k : 0 < k -> forall i, i = 2%nat \/ i = 3%nat -> ~ exists s, In s [[9; 0]; [0; 1]; [1; 5]; [5; 7]; [7; 9]]%nat /\ forall c, In c (nth i (ell k) []) -> level 2 (concat (tl (ell k))) s c = 0.
Proof.
  intros Hk i Hi (s & Hs & H). pose proof (H [k; k] ltac:(destruct Hi as [-> | ->]; cbn; auto)) as Q. clear H. cbn in Hs. repeat (destruct Hs as [<-|Hs]; [unfold level, det2, co in Q; cbn in Q; nra|]). easy.
Qed.
Example C142_ell : exists l, find_non_convex_walls ell_hull (1 / 100000) (1 / 10000000000) 2 (ell 1) = Some l /\ forall i, In i l <-> i = 2%nat \/ i = 3%nat.
Proof.
  destruct (C142_walls_exact ell_hull (1 / 100000) (1 / 10000000000) 2 (ell 1) _ (or_introl eq_refl) ltac:(lra) ltac:(lra) (ell_room 1) eq_refl (ell_facets 1 ltac:(lra))) as (l & E & _ & H).
  - intros s w Hs Hw. unfold tolerance. cbn [Nat.eqb]. cbn in Hs, Hw. repeat (destruct Hw as [<-|Hw]; [repeat (destruct Hs as [<-|Hs]; [unfold level, det2, centroid, co; cbn; unfold Rabs; destruct (Rcase_abs _); lra|]); easy|]). easy.
  - exists l. split; [exact E|]. intros i. rewrite H. split.
    + intros [Hi N]. assert (Hi6 : (i < 6)%nat) by exact Hi. destruct i as [|[|[|[|[|[|i]]]]]]; auto; try lia; exfalso; apply N;
      [exists [9; 0]%nat|exists [0; 1]%nat|exists [5; 7]%nat|exists [7; 9]%nat]; (split; [cbn; tauto|]; intros c Hc; cbn in Hc; repeat (destruct Hc as [<-|Hc]; [unfold level, det2, co; cbn; ring|]); easy).
    + intros Hi. split; [destruct Hi as [-> | ->]; cbn; lia|]. apply (ell_inner 1); [lra|auto].
Qed.
(** Finding: the tolerance is an area of 1e-5 square metres in two dimensions (libroom.cpp:46 is meant as a length): in an L-shaped room
    of 3 mm no wall is found, though the inner corner hides points from each other. *)
Theorem C142_tolerance_refuted : exists hull walls simplices i p q t z, room_walls 2 walls /\ hull (concat (tl walls)) = Some simplices /\
  (forall s, In s simplices -> length s = 2%nat /\ (forall j, In j s -> (j < length (concat (tl walls)))%nat) /\ supports 2 (concat (tl walls)) s) /\
  find_non_convex_walls hull (1 / 100000) (1 / 10000000000) 2 walls = Some [] /\ (i < length walls)%nat /\ spanned 2 (concat (tl walls)) p /\ spanned 2 (concat (tl walls)) q /\ 0 < t < 1 /\
  (forall d, (d < 2)%nat -> co z d = co p d + t * (co q d - co p d)) /\ spanned 2 (nth i walls []) z /\
  ~ exists s, In s simplices /\ forall c, In c (nth i walls []) -> level 2 (concat (tl walls)) s c = 0.
Proof.
  set (k := 1 / 1000). exists ell_hull, (ell k), [[9; 0]; [0; 1]; [1; 5]; [5; 7]; [7; 9]]%nat, 2%nat, [2 * k; 1 / 2 * k], [1 / 2 * k; 2 * k], (1 / 3), [3 / 2 * k; k].
  assert (Hk : 0 < k) by (unfold k; lra). split; [apply ell_room|]. split; [reflexivity|]. split; [now apply ell_facets|]. split; [|split; [cbn; lia|]].
  - unfold find_non_convex_walls. cbv zeta. change (all_corners (ell k)) with (concat (tl (ell k))). set (X := concat (tl (ell k))). assert (G : forall w, In w (ell k) -> existsb (on_facet (1 / 100000) (1 / 10000000000) X (centroid 2 w)) [[9; 0]; [0; 1]; [1; 5]; [5; 7]; [7; 9]]%nat = true).
    { intros w Hw. apply existsb_exists. exists [9; 0]%nat. split; [now left|]. destruct (ell_facets k Hk [9; 0]%nat ltac:(now left)) as (A & B & _). apply (on_facet_level (1 / 100000) (1 / 10000000000) 2); auto; try lra.
      - intros x Hx. unfold X in Hx. cbn in Hx. repeat (destruct Hx as [<-|Hx]; [reflexivity|]). easy.
      - unfold tolerance. cbn [Nat.eqb]. unfold X. cbn in Hw. repeat (destruct Hw as [<-|Hw]; [unfold level, det2, centroid, co, k; cbn; apply Rabs_def1; lra|]). easy. }
    change (match X with [] => None | _ :: _ => let* simplices := ell_hull X in Some (filter (fun i => negb (nth i (map (fun w => existsb (on_facet (1 / 100000) (1 / 10000000000) X (centroid 2 w)) simplices) (ell k)) false)) (seq 0 (length (ell k)))) end) with (Some (filter (fun i => negb (nth i (map (fun w => existsb (on_facet (1 / 100000) (1 / 10000000000) X (centroid 2 w)) [[9; 0]; [0; 1]; [1; 5]; [5; 7]; [7; 9]]%nat) (ell k)) false)) (seq 0 (length (ell k))))).
    rewrite (map_ext_in _ (fun _ => true)) by exact G. reflexivity.
  - split; [|split; [|split; [lra|split; [|split]]]].
    + split; [reflexivity|]. exists [1 / 6; 1 / 2; 0; 0; 0; 0; 0; 0; 0; 1 / 3]. split; [reflexivity|]. split; [intros j Hj; cbn in Hj; repeat (destruct Hj as [<-|Hj]; [lra|]); easy|]. split; [cbn; lra|]. intros [|[|d]] Hd; try lia; unfold co; cbn; lra.
    + split; [reflexivity|]. exists [0; 0; 0; 0; 0; 1 / 2; 0; 1 / 6; 0; 1 / 3]. split; [reflexivity|]. split; [intros j Hj; cbn in Hj; repeat (destruct Hj as [<-|Hj]; [lra|]); easy|]. split; [cbn; lra|]. intros [|[|d]] Hd; try lia; unfold co; cbn; lra.
    + intros [|[|d]] Hd; try lia; unfold co; cbn; lra.
    + split; [reflexivity|]. exists [1 / 4; 3 / 4]. split; [reflexivity|]. split; [intros j Hj; cbn in Hj; repeat (destruct Hj as [<-|Hj]; [lra|]); easy|]. split; [cbn; lra|]. intros [|[|d]] Hd; try lia; unfold co; cbn; lra.
    + apply ell_inner; auto.
Qed.
Print Assumptions C142_tolerance_refuted.
