(** Properties C01-C06: shoebox image source model. *)
From Coq Require Import List ZArith Lia Reals Lra.
From Verif Require Import Base ShoeboxModel ShoeboxSpec ShoeboxProofs.
Import ListNotations.

(** C01.  The run succeeds (no store outside the allocated array, no read outside the
    power table), every allocated cell is written, and the number of images is the
    closed form. *)
Theorem C01_shoebox_image_count : forall r src n, (0 <= n)%Z ->
  sb_dim r = 2 \/ sb_dim r = 3 ->
  exists ims, image_source_shoebox r src n = Some (map Some ims) /\
    (sb_dim r = 2 -> (Z.of_nat (length ims) = 1 + 2 * n * (n + 1))%Z) /\
    (sb_dim r = 3 ->
     (3 * (Z.of_nat (length ims) - 1) = 2 * n * (2 * n * n + 3 * n + 4))%Z).
Proof. exact shoebox_count_lemma. Qed.
Print Assumptions C01_shoebox_image_count.

(** C02.  The per-axis reflection counts are the lattice points of the L1 ball, each
    once, and the reported order is the L1 norm. *)
Theorem C02_shoebox_images_are_l1_ball : forall r src n, (0 <= n)%Z ->
  sb_dim r = 2 \/ sb_dim r = 3 ->
  exists ims, image_source_shoebox r src n = Some (map Some ims) /\
    NoDup (map im_order_xyz ims) /\
    (forall p, In p (map im_order_xyz ims) <-> length p = sb_dim r /\ (l1 p <= n)%Z) /\
    (forall im, In im ims -> im_order im = l1 (im_order_xyz im)).
Proof. exact shoebox_lattice_lemma. Qed.
Print Assumptions C02_shoebox_images_are_l1_ball.

(** C03.  Positions are iterated mirror images. *)
Theorem C03_shoebox_positions_are_mirror_images : forall r src n ims im, (0 <= n)%Z ->
  sb_dim r = 2 \/ sb_dim r = 3 -> length src = sb_dim r ->
  image_source_shoebox r src n = Some (map Some ims) -> In im ims ->
  length (im_loc im) = sb_dim r /\
  forall d, d < sb_dim r ->
    nth d (im_loc im) 0%R =
    mirrors (nth d (sb_size r) 0%R) (axis_word (nth d (im_order_xyz im) 0%Z)) (nth d src 0%R).
Proof. exact shoebox_positions_lemma. Qed.
Print Assumptions C03_shoebox_positions_are_mirror_images.

(** C04.  Attenuation = product of the factors of the walls of the mirror words;
    [t band column] is the amplitude factor of a wall. *)
Theorem C04_shoebox_attenuation : forall r src n ims im (t : nat -> nat -> R), (0 <= n)%Z ->
  sb_dim r = 2 \/ sb_dim r = 3 ->
  image_source_shoebox r src n = Some (map Some ims) -> In im ims ->
  ((sb_hybrid r = true /\
    exists b c, b < sb_bands r /\ c < 2 * sb_dim r /\ (0 < sb_scat r b c)%R) ->
   forall b c, t b c = (sqrt (1 - sb_abs r b c) * sqrt (1 - sb_scat r b c))%R) ->
  (~ (sb_hybrid r = true /\
    exists b c, b < sb_bands r /\ c < 2 * sb_dim r /\ (0 < sb_scat r b c)%R) ->
   forall b c, t b c = sqrt (1 - sb_abs r b c)%R) ->
  im_att im = map (fun b => path_gain (t b) (im_order_xyz im)) (seq 0 (sb_bands r)).
Proof. exact shoebox_attenuation_lemma. Qed.
Print Assumptions C04_shoebox_attenuation.

(** C04, unfolded picture: for source and microphone inside the room the letters of
    the word of an axis count the planes (translates of that wall) crossed by the
    straight segment from the microphone to the image. *)
Theorem C04_words_count_wall_crossings : forall L m s i,
  (0 < m < L)%R -> (0 < s < L)%R ->
  exists ks, NoDup ks /\
    (forall k, In k ks <-> crosses L m (mirrors L (axis_word i) s) k) /\
    length (filter Z.odd ks) =
      length (filter (fun w => match w with Far => true | Near => false end) (axis_word i)) /\
    length (filter Z.even ks) =
      length (filter (fun w => match w with Far => false | Near => true end) (axis_word i)).
Proof. exact word_crossings_lemma. Qed.
Print Assumptions C04_words_count_wall_crossings.

(** C05.  Directions: microphone mirrored back through the reversed word, minus the
    true source. *)
Theorem C05_shoebox_departure_direction : forall r src n ims im, (0 <= n)%Z ->
  sb_dim r = 2 \/ sb_dim r = 3 -> length src = sb_dim r ->
  image_source_shoebox r src n = Some (map Some ims) -> In im ims ->
  Forall2 (fun u mic =>
    is_direction_of u
      (vsub (map (fun d => mirrors (nth d (sb_size r) 0%R)
                     (rev (axis_word (nth d (im_order_xyz im) 0%Z))) (nth d mic 0%R))
                 (seq 0 (sb_dim r))) src))
    (im_dirs im) (sb_mics r).
Proof. exact shoebox_directions_lemma. Qed.
Print Assumptions C05_shoebox_departure_direction.

(** C06.  Passivity, monotonicity in the absorption, nesting of orders. *)
Theorem C06_shoebox_passive : forall r src n ims im, (0 <= n)%Z ->
  sb_dim r = 2 \/ sb_dim r = 3 ->
  (forall b c, b < sb_bands r -> c < 2 * sb_dim r ->
     (0 <= sb_abs r b c <= 1)%R /\ (0 <= sb_scat r b c <= 1)%R) ->
  image_source_shoebox r src n = Some (map Some ims) -> In im ims ->
  Forall (fun a => 0 <= a <= 1)%R (im_att im).
Proof. exact shoebox_passive_lemma. Qed.
Print Assumptions C06_shoebox_passive.

Theorem C06_shoebox_monotone_in_absorption : forall r r' src n ims ims', (0 <= n)%Z ->
  sb_dim r = 2 \/ sb_dim r = 3 ->
  sb_size r = sb_size r' -> sb_scat r = sb_scat r' -> sb_hybrid r = sb_hybrid r' ->
  sb_bands r = sb_bands r' ->
  (forall b c, b < sb_bands r -> c < 2 * sb_dim r -> (sb_abs r b c <= sb_abs r' b c)%R) ->
  image_source_shoebox r src n = Some (map Some ims) ->
  image_source_shoebox r' src n = Some (map Some ims') ->
  Forall2 (fun im im' => im_order_xyz im = im_order_xyz im' /\ im_loc im = im_loc im' /\
     Forall2 (fun a a' => 0 <= a' <= a)%R (im_att im) (im_att im')) ims ims'.
Proof. exact shoebox_monotone_lemma. Qed.
Print Assumptions C06_shoebox_monotone_in_absorption.

Theorem C06_shoebox_orders_nested : forall r src n m ims ims', (0 <= n)%Z -> (n <= m)%Z ->
  sb_dim r = 2 \/ sb_dim r = 3 ->
  image_source_shoebox r src n = Some (map Some ims) ->
  image_source_shoebox r src m = Some (map Some ims') ->
  incl ims ims' /\
  forall im, In im ims' -> (im_order im <= n)%Z -> In im ims.
Proof. exact shoebox_nested_lemma. Qed.
Print Assumptions C06_shoebox_orders_nested.

(** * Concrete cases meeting the hypotheses *)

Definition room_ex : shoebox := {|
  sb_size := [4; 5; 3]%R;
  sb_abs := fun b c => (/ 10 * INR (c + 1))%R;
  sb_scat := fun b c => (/ 5)%R;
  sb_bands := 2;
  sb_hybrid := true;
  sb_mics := [[1; 1; 1]; [2; 3; 2]]%R |}.

Example room_ex_dim : sb_dim room_ex = 2 \/ sb_dim room_ex = 3.
Proof. right; reflexivity. Qed.

Example room_ex_runs : exists ims,
  image_source_shoebox room_ex [2; 2; 1]%R 3 = Some (map Some ims) /\ length ims = 63.
Proof.
  destruct (C01_shoebox_image_count room_ex [2; 2; 1]%R 3 ltac:(lia) room_ex_dim)
    as [ims [E [_ H]]].
  exists ims. split; auto. specialize (H eq_refl). lia.
Qed.

Example room_ex_coefficients : forall b c, b < sb_bands room_ex -> c < 2 * sb_dim room_ex ->
  (0 <= sb_abs room_ex b c <= 1)%R /\ (0 <= sb_scat room_ex b c <= 1)%R.
Proof.
  intros b c Hb Hc. cbn [room_ex sb_abs sb_scat]. split; [|lra].
  assert (0 <= INR (c + 1) <= INR 7)%R
    by (split; [apply pos_INR|apply le_INR; unfold sb_dim in Hc; simpl in Hc; lia]).
  simpl (INR 7) in H. lra.
Qed.

(** In the example a scattering coefficient is positive, so the first case of C04
    applies. *)
Example room_ex_scatters : sb_hybrid room_ex = true /\
  exists b c, b < sb_bands room_ex /\ c < 2 * sb_dim room_ex /\ (0 < sb_scat room_ex b c)%R.
Proof. split; [reflexivity|]. exists 0, 0. cbn. repeat split; try lia. lra. Qed.

Example axis_word_ex : axis_word 3 = [Far; Near; Far] /\ axis_word (-2) = [Far; Near].
Proof. split; reflexivity. Qed.

Example loop_ex : length (loop_points 3 5) = 231 /\ length (loop_points 2 5) = 61.
Proof. split; vm_compute; reflexivity. Qed.
