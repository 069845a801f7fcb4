(** Properties of the general image source model: C07, C08, C09. *)
From Coq Require Import List ZArith Lia Reals Lra Psatz Bool Sorting.Sorted.
From Verif Require Import Base BaseProofs Vec GeometryModel GeometrySpec GeometryProofs
  WallModel WallSpec WallProofs RayModel RaySpec RayProofs RayProps IsmModel IsmSpec IsmProofs.
Import ListNotations.
Local Open Scope R_scope.

(** C08.  The reported images are exactly the visible admissible reflection sequences,
    once each, in exploration order, and every array is aligned with that list.  (When
    nothing is visible the count is 0 and the arrays are left as they were.) *)
Theorem C08_images_are_exactly_the_visible_sequences : forall r eps old src n_b,
  0 <= eps -> room_fit r -> bands_ok r n_b -> length src = r_dim r -> (0 <= r_ism_order r)%Z ->
  exists words a,
    image_source_model r eps old src = Some (length words, a) /\
    NoDup words /\ StronglySorted (fun u v => before (rev u) (rev v)) words /\
    (forall word, In word words <->
       (Z.of_nat (length word) <= r_ism_order r)%Z /\ (exists q, image_of r eps src word q) /\
       exists mic xs, In mic (r_mics r) /\ sees r eps src word mic xs) /\
    (words = [] -> a = old) /\
    (words <> [] ->
       length (a_sources a) = length words /\ length (a_orders a) = length words /\
       length (a_gens a) = length words /\ length (a_atts a) = length words /\
       length (a_vis a) = length words /\ length (a_dirs a) = (length words * length (r_mics r))%nat) /\
    (forall i word, nth_error words i = Some word ->
       exists q att vis,
         nth_error (a_sources a) i = Some q /\ image_of r eps src word q /\
         nth_error (a_orders a) i = Some (Z.of_nat (length word)) /\
         nth_error (a_gens a) i = Some (match word with [] => -1 | g :: _ => Z.of_nat g end)%Z /\
         nth_error (a_atts a) i = Some att /\ length att = n_b /\
         (forall b, (b < n_b)%nat -> nth b att 0 = amplitude r word b) /\
         nth_error (a_vis a) i = Some vis /\ length vis = length (r_mics r) /\
         forall m mic, nth_error (r_mics r) m = Some mic ->
           exists v, nth_error vis m = Some v /\ (v = true <-> exists xs, sees r eps src word mic xs) /\
           forall xs, sees r eps src word mic xs ->
             nth_error (a_dirs a) (i * length (r_mics r) + m) =
             Some (Some (vnormalized (vminus (first_leg mic xs) src)))).
Proof.
  intros r eps old src n_b He Fit (Bn & Bf) Ls HN.
  assert (Nb : n_bands r = n_b) by (unfold n_bands; apply Bf, get_wall_In; auto).
  assert (BF : bands_fit r) by (unfold bands_fit; rewrite Nb; exact Bf).
  pose proof (found_ok r eps src He Fit Ls) as F.
  pose proof (Forall2_len _ _ _ F) as Len.
  assert (Hd : forall im, In im (ism_images r eps src) -> length (i_dirs im) = length (r_mics r)).
  { intros im Hi. clear - F Hi. induction F as [|w i ws is (_ & _ & _ & _ & _ & E & _) _ IH]; simpl in *; [tauto|].
    destruct Hi as [<-|Hi]; auto. }
  destruct (found r eps src) as [|w0 ws0] eqn:Ef.
  - exists [], old. unfold image_source_model.
    destruct (ism_images r eps src); [|discriminate]. cbn [rev fill_sources].
    split; auto. split; [constructor|]. split; [constructor|]. split.
    { intros word. rewrite <- Ef. now apply found_In. }
    split; auto. split; [intros C; now contradiction C|]. intros [|i] word E; discriminate.
  - rewrite <- Ef in *.
    exists (found r eps src), {| a_sources := map i_loc (ism_images r eps src); a_orders := map i_order (ism_images r eps src);
        a_gens := map i_gen (ism_images r eps src); a_atts := map i_att (ism_images r eps src);
        a_vis := map i_vis (ism_images r eps src); a_dirs := concat (map i_dirs (ism_images r eps src)) |}.
    split.
    { rewrite Len. apply fill_sources_ok; auto. intros C. rewrite C in Len. rewrite Ef in Len. discriminate. }
    split; [now apply found_NoDup|]. split; [now apply found_sorted|]. split; [intros; now apply found_In|].
    split; [rewrite Ef; discriminate|]. split.
    { intros _. cbn [a_sources a_orders a_gens a_atts a_vis a_dirs]. rewrite !map_length. repeat split; auto.
      clear - Hd Len. rewrite Len. clear Len. induction (ism_images r eps src) as [|im is IH]; simpl; auto.
      rewrite app_length, Hd, IH; simpl; auto. intros. apply Hd. right; auto. }
    intros i word Hi. destruct (Forall2_nth _ _ _ _ _ F Hi) as (im & Him & Ok).
    assert (A : adm r eps src word = true) by (apply adm_of_found; auto; eapply nth_error_In; eauto).
    pose proof Ok as Ok'. destruct Ok' as (E1 & E2 & E3 & E4 & E5 & E6 & _).
    exists (i_loc im), (i_att im), (i_vis im). cbn [a_sources a_orders a_gens a_atts a_vis a_dirs].
    rewrite !(map_nth_error _ _ _ Him). rewrite E3, E4.
    split; auto. split; [rewrite E1; apply image_of_iff; auto|]. split; auto. split; auto. split; auto.
    split; [rewrite E2, <- Nb; eapply att_length; eauto|].
    split; [intros b Hb; rewrite E2; eapply att_amplitude; eauto; lia|].
    split; auto. split; [rewrite E5; apply map_length|].
    intros m mic Hm. destruct (img_visible r eps src word im m mic He Fit Ls A Ok Hm) as (v & V1 & V2 & V3).
    exists v. split; auto. split; auto. intros xs Hs.
    apply (nth_error_concat _ _ _ _ (i_dirs im)).
    + intros l Hl. apply in_map_iff in Hl. destruct Hl as (im' & <- & H'). auto.
    + now apply map_nth_error.
    + now apply V3.
Qed.
Print Assumptions C08_images_are_exactly_the_visible_sequences.

(** C07.  Each reported image is a genuine chain of mirrorings. *)
Theorem C07_images_are_genuine : forall r eps old src n_b n a i,
  0 <= eps -> room_fit r -> bands_ok r n_b -> length src = r_dim r -> (0 <= r_ism_order r)%Z ->
  image_source_model r eps old src = Some (n, a) -> (i < n)%nat ->
  exists word q att,
    (Z.of_nat (length word) <= r_ism_order r)%Z /\
    nth_error (a_sources a) i = Some q /\ image_of r eps src word q /\
    nth_error (a_orders a) i = Some (Z.of_nat (length word)) /\
    nth_error (a_gens a) i = Some (match word with [] => -1 | g :: _ => Z.of_nat g end)%Z /\
    nth_error (a_atts a) i = Some att /\ length att = n_b /\
    (forall b, (b < n_b)%nat -> nth b att 0 = amplitude r word b).
Proof.
  intros r eps old src n_b n a i He Fit Bf Ls HN E Hi.
  destruct (C08_images_are_exactly_the_visible_sequences r eps old src n_b He Fit Bf Ls HN)
    as (words & a' & E' & _ & _ & Hin & _ & _ & Hw).
  rewrite E in E'. injection E' as -> ->.
  destruct (nth_error words i) as [word|] eqn:Ew; [|apply nth_error_None in Ew; lia].
  destruct (Hw i word Ew) as (q & att & vis & H1 & H2 & H3 & H4 & H5 & H6 & H7 & _).
  apply nth_error_In in Ew. apply Hin in Ew. exists word, q, att. tauto.
Qed.
Print Assumptions C07_images_are_genuine.

(** C09.  Behind every visibility flag there is a reflected path. *)
Theorem C09_visible_image_has_a_reflected_path : forall r eps old src n_b n a i q m mic vis,
  0 < eps -> room_fit r -> bands_ok r n_b -> length src = r_dim r -> (0 <= r_ism_order r)%Z ->
  image_source_model r eps old src = Some (n, a) -> (i < n)%nat ->
  nth_error (a_sources a) i = Some q -> nth_error (a_vis a) i = Some vis ->
  nth_error (r_mics r) m = Some mic -> length mic = r_dim r -> nth_error vis m = Some true ->
  exists word xs,
    image_of r eps src word q /\ sees r eps src word mic xs /\ on_walls r word xs /\
    nth_error (a_dirs a) (i * length (r_mics r) + m) = Some (Some (vnormalized (vminus (first_leg mic xs) src))) /\
    vdist mic q <= path_length mic xs src /\
    (r_dim r = 3%nat -> path_length mic xs src <= (1 + 2 * eps) ^ length word * vdist mic q) /\
    (stays_inside r word mic xs -> path_length mic xs src = vdist mic q /\ obeys_mirror_law r word mic xs src).
Proof.
  intros r eps old src n_b n a i q m mic vis He Fit Bf Ls HN E Hi Hq Hvis Hm Lm Hv.
  assert (He' : 0 <= eps) by lra.
  destruct (C08_images_are_exactly_the_visible_sequences r eps old src n_b He' Fit Bf Ls HN)
    as (words & a' & E' & _ & _ & Hin & _ & _ & Hw).
  rewrite E in E'. injection E' as -> ->.
  destruct (nth_error words i) as [word|] eqn:Ew; [|apply nth_error_None in Ew; lia].
  destruct (Hw i word Ew) as (q' & att & vis' & H1 & H2 & H3 & H4 & H5 & H6 & H7 & H8 & H9 & H10).
  rewrite Hq in H1. injection H1 as <-. rewrite Hvis in H8. injection H8 as <-.
  destruct (H10 m mic Hm) as (v & V1 & V2 & V3). rewrite Hv in V1. injection V1 as <-.
  destruct (proj1 V2 eq_refl) as (xs & Hs). exists word, xs.
  pose proof (proj1 (image_of_iff r eps src Fit Ls word q) H2) as [A Eq].
  split; auto. split; auto. split.
  - clear - Hs Fit Ls Lm He He'. revert xs mic Lm Hs. induction word as [|g w IH]; intros xs mic Lm Hs.
    + inversion Hs; subst. constructor.
    + destruct (sees_hop r eps src Fit Ls He g w mic xs Lm Hs)
        as (x & xs' & s & -> & S' & Lx & A & Hg & _ & _ & _ & Hh & _).
      constructor; [|eapply IH; eauto]. exists (get_wall r g). split; [now apply nth_get_wall|auto].
  - split; [apply V3; auto|].
    destruct (path_bounds r eps src He' Fit Ls He word mic xs Lm Hs) as [B1 B2]. rewrite <- Eq in B1, B2.
    split; auto. split; auto. intros St. split.
    + rewrite Eq. now apply (path_exact r eps src Fit Ls He).
    + now apply (path_mirror r eps src Fit Ls He).
Qed.
Print Assumptions C09_visible_image_has_a_reflected_path.

(** The cube with a source off the microphone: the reflection on the floor is an
    admissible sequence and it is seen. *)
Example C07_ex : room_fit cube_room /\ bands_ok cube_room 1 /\ image_of cube_room (1/100000) [1;1;3] [0%nat] [1;1;-3].
Proof.
  split; [|split].
  - split; [right; reflexivity|]. intros w Hw. simpl in Hw.
    repeat destruct Hw as [<-|Hw]; try destruct Hw; (split; [reflexivity|]; split; [reflexivity|]; split;
      [unfold dot; simpl; ring|discriminate]).
  - split; [simpl; lia|]. intros w Hw. simpl in Hw.
    repeat destruct Hw as [<-|Hw]; try destruct Hw; (split; [reflexivity|]; split; [reflexivity|];
      intros s [<-|[]]; lra).
  - apply (image_refl _ _ _ [] [1;1;3] 0%nat (nth 0 cube wall0)); [constructor|reflexivity| |].
    + unfold height, dot, vminus; simpl. lra.
    + split; [reflexivity|]. split; [exists 6; unfold vadd, vscal; simpl; repeat f_equal; ring|].
      unfold dot, vminus, vscal, vadd; simpl. field.
Qed.

Example C09_ex : exists xs, sees cube_room (1/100000) [1;1;3] [0%nat] [1;1;1] xs /\
  stays_inside cube_room [0%nat] [1;1;1] xs.
Proof.
  exists [[1;1;0]]. split.
  - apply (sees_refl _ _ _ 0%nat [] [1;1;1] [1;1;-3] 0%Z [1;1;0] []).
    + apply C07_ex.
    + intros i [].
    + unfold wall_intersection. cbn [r_dim cube_room Nat.eqb].
      assert (SP : intersection_seg_plane (1/100000) [1;1;1] [1;1;-3] (w_origin (nth 0 cube wall0)) (w_normal (nth 0 cube wall0))
                   = (0%Z, Some [1;1;0])).
      { unfold intersection_seg_plane. cbv zeta.
        assert (D1 : dot (w_normal (nth 0 cube wall0)) (vminus [1;1;-3] [1;1;1]) = 4) by (unfold dot, vminus; simpl; ring).
        assert (D2 : dot (w_normal (nth 0 cube wall0)) (vminus [1;1;1] (w_origin (nth 0 cube wall0))) = -1)
          by (unfold dot, vminus; simpl; ring).
        rewrite D1, D2.
        assert (D3 : - -1 / 4 = 1/4) by lra. rewrite D3.
        assert (R1 : Rltb (1/100000) (Rabs 4) = true) by (apply Rltb_true; rewrite Rabs_right; lra).
        assert (R2 : Rleb (0 - 1/100000) (1/4) && Rleb (1/4) (1 + 1/100000) = true)
          by (apply andb_true_iff; split; apply Rleb_true; lra).
        assert (R3 : Rltb (Rabs (1/4)) (1/100000) = false) by (apply Rltb_false; rewrite Rabs_right; lra).
        assert (R4 : Rltb (Rabs (1/4 - 1)) (1/100000) = false) by (apply Rltb_false; rewrite Rabs_left; lra).
        rewrite R1, R2, R3, R4. simpl. f_equal. f_equal. unfold vadd, vscal, vminus; simpl.
        f_equal; [lra|]. f_equal; [lra|]. f_equal. lra. }
      cbn [r_walls cube_room]. rewrite SP. cbn [Z.eqb].
      assert (In2 : is_inside_2d_polygon (1/100000) (project (w_basis (nth 0 cube wall0)) (w_origin (nth 0 cube wall0)) [1;1;0])
        (w_flat (nth 0 cube wall0)) = 0%Z).
      { apply inside_strict_proof; [lra|discriminate|].
        intros ed He. simpl in He. repeat destruct He as [<-|He]; try destruct He;
        unfold orient, project, dot, vminus; simpl; lra. }
      rewrite In2. reflexivity.
    + lia.
    + constructor. intros i [].
  - simpl. unfold height, dot, vminus; simpl. split; [lra|auto].
Qed.
