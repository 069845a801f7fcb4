(** C161: walls by name. *)
From Coq Require Import List ZArith Lia Bool String DecimalString Decimal DecimalNat.
From Verif Require Import Base BaseProofs ParamModel NamesModel.
Import ListNotations.
Local Open Scope string_scope.

(** ** Proofs *)
Section Proofs.
Context {W : Type}.
Implicit Types ws : list (@wall W).
Lemma mapping_app ws w : wall_mapping (ws ++ [w]) = (fst w, List.length ws) :: wall_mapping ws.
Proof.
  unfold wall_mapping. rewrite app_length. cbn [List.length]. rewrite seq_app, fold_left_app. cbn [seq fold_left]. rewrite Nat.add_0_l, nth_error_app2, Nat.sub_diag by lia. cbn [nth_error]. f_equal.
  assert (G : forall l d, (forall i, In i l -> i < List.length ws)%nat -> fold_left (fun d i => match nth_error (ws ++ [w]) i with Some w => (fst w, i) :: d | None => d end) l d = fold_left (fun d i => match nth_error ws i with Some w => (fst w, i) :: d | None => d end) l d).
  { induction l as [|i l IH]; intros d H; [reflexivity|]. cbn [fold_left]. rewrite nth_error_app1 by (apply H; now left). apply IH. intros j Hj. apply H. now right. }
  apply G. intros i Hi. apply in_seq in Hi. lia.
Qed.
Lemma mapping_found ws i w : nth_error ws i = Some w -> (forall j w', (i < j)%nat -> nth_error ws j = Some w' -> fst w' <> fst w) -> lookup (fst w) (wall_mapping ws) = Some i.
Proof.
  induction ws as [|x ws IH] using rev_ind; intros H L; [destruct i; discriminate|]. rewrite mapping_app. cbn [lookup]. destruct (Nat.lt_ge_cases i (List.length ws)) as [Hi|Hi].
  - destruct (String.eqb_spec (fst x) (fst w)) as [E|_].
    + exfalso. apply (L (List.length ws) x Hi); [|exact E]. now rewrite nth_error_app2, Nat.sub_diag by lia.
    + rewrite nth_error_app1 in H by exact Hi. apply IH; [exact H|]. intros j w' Hj E. apply (L j w' Hj). rewrite nth_error_app1; [exact E|]. apply nth_error_Some. now rewrite E.
  - rewrite nth_error_app2 in H by exact Hi. destruct (i - List.length ws)%nat as [|k] eqn:E; [|destruct k; discriminate]. injection H as ->. rewrite String.eqb_refl. apply (f_equal (@Some nat)). lia.
Qed.
Lemma mapping_missing ws name : ~ In name (map fst ws) -> lookup name (wall_mapping ws) = None.
Proof.
  induction ws as [|x ws IH] using rev_ind; intros H; [reflexivity|]. rewrite map_app, in_app_iff in H. rewrite mapping_app. cbn [lookup]. destruct (String.eqb_spec (fst x) name) as [E|_]; [exfalso; apply H; right; left; exact E|]. apply IH. tauto.
Qed.
End Proofs.

(** C161.  A room gives the wall of a name, the last one if several walls have it, and raises when no wall has it. *)
Theorem C161_named : forall (W : Type) (ws : list (@wall W)) name,
  (forall i w, nth_error ws i = Some w -> fst w = name -> (forall j w', (i < j)%nat -> nth_error ws j = Some w' -> fst w' <> name) -> get_wall_by_name (new_room ws) name = Some w) /\
  (~ In name (map fst ws) -> get_wall_by_name (new_room ws) name = None).
Proof.
  intros W ws name. unfold get_wall_by_name. cbn [new_room walls wallsId]. split.
  - intros i w H E L. subst name. rewrite (mapping_found ws i w H L). exact H.
  - intros H. now rewrite mapping_missing.
Qed.
Print Assumptions C161_named.

Lemma append_inj a b c : a ++ b = a ++ c -> b = c.
Proof. induction a as [|x a IH]; cbn; intros H; [exact H|]. injection H as H. now apply IH. Qed.
Lemma str_inj i j : str i = str j -> i = j.
Proof.
  unfold str. intros H. apply (f_equal NilEmpty.uint_of_string) in H. rewrite !NilEmpty.usu in H. injection H as H. now apply Unsigned.to_uint_inj.
Qed.
Lemma combine_nth_error {A B} (a : list A) (b : list B) i : nth_error (combine a b) i = match nth_error a i, nth_error b i with Some x, Some y => Some (x, y) | _, _ => None end.
Proof. revert b i. induction a as [|x a IH]; intros [|y b] [|i]; cbn; try reflexivity; [destruct (nth_error a i); reflexivity|apply IH]. Qed.
Lemma nth_error_names (f : nat -> string) n i : nth_error (map f (seq 0 n)) i = if Nat.ltb i n then Some (f i) else None.
Proof.
  rewrite nth_error_map. destruct (Nat.ltb_spec i n) as [H|H].
  - rewrite (nth_error_nth' _ 0%nat) by (rewrite seq_length; exact H). cbn. now rewrite seq_nth.
  - rewrite (proj2 (nth_error_None _ _)) by (rewrite seq_length; exact H). reflexivity.
Qed.

Lemma corner_walls {W} (ws : list W) i : nth_error (walls (from_corners ws)) i = match nth_error ws i with Some w => Some ("wall_" ++ str i, w) | None => None end.
Proof.
  etransitivity; [exact (combine_nth_error (map (fun i => "wall_" ++ str i) (seq 0 (List.length ws))) ws i)|]. rewrite nth_error_names. destruct (Nat.ltb_spec i (List.length ws)) as [H|H]; [reflexivity|]. now rewrite (proj2 (nth_error_None ws i) H).
Qed.

(** C161.  The walls of a room made from corners are called wall_0, wall_1, ... in order, and have no other names. *)
Theorem C161_corners : forall (W : Type) (ws : list W),
  (forall i w, nth_error ws i = Some w -> get_wall_by_name (from_corners ws) ("wall_" ++ str i) = Some ("wall_" ++ str i, w)) /\
  (forall name, (forall i, (i < List.length ws)%nat -> name <> "wall_" ++ str i) -> get_wall_by_name (from_corners ws) name = None).
Proof.
  intros W ws. unfold from_corners. set (l := combine _ _). assert (E : forall i, nth_error l i = match nth_error ws i with Some w => Some ("wall_" ++ str i, w) | None => None end).
  { intros i. unfold l. rewrite combine_nth_error, nth_error_names. destruct (Nat.ltb_spec i (List.length ws)) as [H|H]; [reflexivity|]. now rewrite (proj2 (nth_error_None ws i) H). }
  split.
  - intros i w H. apply (proj1 (C161_named W l ("wall_" ++ str i)) i); [rewrite E, H; reflexivity|reflexivity|]. intros j w' Hj Hw. rewrite E in Hw. destruct (nth_error ws j); [|discriminate]. injection Hw as <-. intros Q. apply (append_inj "wall_" (str j) (str i)), str_inj in Q. lia.
  - intros name H. apply (proj2 (C161_named W l name)). intros I. apply in_map_iff in I. destruct I as (w & En & Hw). apply In_nth_error in Hw. destruct Hw as [i Hi]. pose proof (E i) as Ei. rewrite Hi in Ei. destruct (nth_error ws i) as [v|] eqn:Ev; [|discriminate]. injection Ei as Ei. subst w. cbn in En. apply (H i); [apply nth_error_Some; now rewrite Ev|]. now symmetry.
Qed.
Print Assumptions C161_corners.

(** C161.  Every wall of a shoebox, in two and in three dimensions, is found by its name and has the material given for that name. *)
Theorem C161_shoebox : forall (W Mat : Type) (rest : nat -> Mat -> W) materials default dim name, dim = 2%nat \/ dim = 3%nat ->
  (In name (wall_names dim) -> exists place, get_wall_by_name (shoebox rest materials default dim) name = Some (name, rest place (materials name))) /\
  (~ In name (wall_names dim) -> get_wall_by_name (shoebox rest materials default dim) name = None).
Proof.
  intros W Mat rest materials default dim name [-> | ->]; (split; [intros H; cbn in H; repeat (destruct H as [<-|H]; [eexists; reflexivity|]); destruct H|]).
  - intros H. apply (proj2 (C161_named W _ name)). intros I. apply H. cbn in *. tauto.
  - intros H. apply (proj2 (C161_named W _ name)). exact H.
Qed.
Print Assumptions C161_shoebox.

(** C161.  After extrude the mapping is the old one: an old name gives the side on that edge of the floor, though it is now called
    otherwise, and the floor, the ceiling and the new names of the sides raise. *)
Theorem C161_extruded : forall (W : Type) (ws sides : list W) floor ceiling, List.length sides = List.length ws ->
  let r := extrude (from_corners ws) sides floor ceiling in
  (forall i w, nth_error sides i = Some w -> get_wall_by_name r ("wall_" ++ str i) = Some (str i, w)) /\
  (forall name, (forall i, (i < List.length ws)%nat -> name <> "wall_" ++ str i) -> get_wall_by_name r name = None).
Proof.
  intros W ws sides floor ceiling HL r.
  assert (LW : List.length (walls (from_corners ws)) = List.length ws) by (etransitivity; [exact (combine_length (map (fun i => "wall_" ++ str i) (seq 0 (List.length ws))) ws)|]; rewrite map_length, seq_length; lia).
  assert (OLD : forall name, lookup name (wallsId r) = lookup name (wallsId (from_corners ws))) by reflexivity. split.
  - intros i w H. assert (Hi : (i < List.length ws)%nat) by (rewrite <- HL; apply nth_error_Some; now rewrite H).
    destruct (nth_error ws i) as [v|] eqn:Ev; [|apply nth_error_None in Ev; lia]. pose proof (proj1 (C161_corners W ws) i v Ev) as G. unfold get_wall_by_name in *. rewrite OLD. destruct (lookup _ _) as [k|]; [|discriminate]. cbn [bind] in *.
    assert (K : k = i).
    { rewrite corner_walls in G. destruct (nth_error ws k); [|discriminate]. injection G as G _. now apply str_inj. }
    subst k. cbn [r extrude walls]. rewrite LW. rewrite nth_error_app1 by (eapply Nat.lt_le_trans; [|apply Nat.eq_le_incl; symmetry; exact (combine_length (map str (seq 0 (List.length ws))) sides)]; rewrite map_length, seq_length; lia). etransitivity; [exact (combine_nth_error (map str (seq 0 (List.length ws))) sides i)|]. rewrite nth_error_names, H. destruct (Nat.ltb_spec i (List.length ws)); [reflexivity|lia].
  - intros name H. pose proof (proj2 (C161_corners W ws) name H) as G. unfold get_wall_by_name in *. rewrite OLD. destruct (lookup _ _) as [k|] eqn:E; [|reflexivity]. exfalso. cbn [bind] in G. revert E.
    unfold from_corners. cbn [new_room wallsId]. rewrite (mapping_missing (W := W)); [discriminate|]. intros I. apply in_map_iff in I. destruct I as (w & En & Hw). apply In_nth_error in Hw. destruct Hw as [i Hi]. change (nth_error (walls (from_corners ws)) i = Some w) in Hi. rewrite corner_walls in Hi. destruct (nth_error ws i) as [v|] eqn:Ev; [|discriminate]. injection Hi as <-. apply (H i); [apply nth_error_Some; now rewrite Ev|]. symmetry. exact En.
Qed.
Print Assumptions C161_extruded.

(** C161.  A room that was extruded has walls called floor and ceiling, but get_wall_by_name raises for them. *)
Theorem C161_floor_refuted : exists (ws sides : list nat) floor ceiling, let r := extrude (from_corners ws) sides floor ceiling in
  In ("floor", floor) (walls r) /\ get_wall_by_name r "floor" = None /\ In ("0", nth 0 sides 0%nat) (walls r) /\ get_wall_by_name r "0" = None.
Proof. exists [10; 11; 12]%nat, [20; 21; 22]%nat, 30%nat, 40%nat. cbn. repeat split; auto. Qed.
Print Assumptions C161_floor_refuted.

(** ** Examples *)
Example C161_corners_ex : get_wall_by_name (from_corners [10; 11; 12]%nat) "wall_2" = Some ("wall_2", 12%nat) /\ get_wall_by_name (from_corners [10; 11; 12]%nat) "wall_3" = None.
Proof.
  split; [exact (proj1 (C161_corners nat [10; 11; 12]%nat) 2%nat 12%nat eq_refl)|]. apply (proj2 (C161_corners nat [10; 11; 12]%nat)). intros i Hi. cbn in Hi. destruct i as [|[|[|i]]]; [discriminate|discriminate|discriminate|lia].
Qed.
Example C161_named_ex : get_wall_by_name (new_room [("a", 1); ("b", 2); ("a", 3)]%nat) "a" = Some ("a", 3%nat).
Proof. apply (proj1 (C161_named nat [("a", 1); ("b", 2); ("a", 3)]%nat "a") 2%nat); [reflexivity|reflexivity|]. intros j w Hj E. destruct j as [|[|[|[|j]]]]; cbn in E; try lia; discriminate. Qed.
Example C161_extruded_ex : get_wall_by_name (extrude (from_corners [10; 11; 12]%nat) [20; 21; 22]%nat 30%nat 40%nat) "wall_1" = Some ("1", 21%nat).
Proof. exact (proj1 (C161_extruded nat [10; 11; 12]%nat [20; 21; 22]%nat 30%nat 40%nat eq_refl) 1%nat 21%nat eq_refl). Qed.
