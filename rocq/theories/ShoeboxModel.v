(** Image source model of shoebox rooms: [Room<D>::image_source_shoebox] and the
    two count functions, /repo/pyroomacoustics/libroom_src/room.cpp.

    Simplifications: C [int]/[size_t] are [Z] (no overflow); [float] is [R] (no
    rounding); the D-dimensional vectors are lists of length D; the (bands x 2D)
    Eigen arrays are functions [band -> column -> R] together with their number of
    rows. *)
From Coq Require Import List ZArith Lia Reals Lra.
From Verif Require Import Base.
Import ListNotations.

(** room.cpp:33-38 [number_image_sources_2] *)
Definition number_image_sources_2 (n : Z) : Z := (1 + 2 * n * (n + 1))%Z.

(** room.cpp:40-46 [number_image_sources_3]; the C division associates as
    [(2*n*(...)) / 3] and is an integer division. *)
Definition number_image_sources_3 (n : Z) : Z :=
  let n_sq := (n * n)%Z in (1 + (2 * n * (2 * n_sq + 3 * n + 4)) / 3)%Z.

(** room.cpp:401-402; D is the space dimension (2 or 3). *)
Definition n_image_sources (D : nat) (n : Z) : Z :=
  if Nat.eqb D 2 then number_image_sources_2 n else number_image_sources_3 n.

(** A loop point [point[3]], room.cpp:409. *)
Record point3 := mkpt { px : Z; py : Z; pz : Z }.

(** [point[d]] *)
Definition coord (p : point3) (d : nat) : Z :=
  match d with O => px p | S O => py p | _ => pz p end.

(** room.cpp:411-422: the three nested loops over the discrete L1 ball. *)
Definition loop_points (D : nat) (ism_order : Z) : list point3 :=
  let z_max := if Nat.eqb D 2 then 0%Z else ism_order in
  flat_map (fun z =>
    let y_max := (ism_order - Z.abs z)%Z in
    flat_map (fun y =>
      let x_max := (y_max - Z.abs y)%Z in
      let x_max := if (x_max <? 0)%Z then 0%Z else x_max in
      map (fun x => mkpt x y z) (crange (- x_max) x_max))
    (crange (- y_max) y_max))
  (crange (- z_max) z_max).

(** room.cpp:429-436: position of the image along one axis.  [abs_point % 2 == 1]
    is tested on a non-negative integer. *)
Definition axis_loc (size src : R) (i : Z) : R :=
  let step := if (Z.abs i mod 2 =? 1)%Z then (size - src)%R else src in
  (IZR i * size + step)%R.

(** room.cpp:441-449: component of the (unnormalised) source direction. *)
Definition axis_dir (size src mic : R) (i : Z) : R :=
  if (Z.abs i mod 2 =? 1)%Z then (axis_loc size src i - mic)%R
  else (mic - axis_loc size src i)%R.

(** room.cpp:456-463: the two exponents.  C integer division truncates: [Z.quot]. *)
Definition axis_p1 (i : Z) : Z :=
  if (0 <? i)%Z then Z.quot i 2
  else if (i <? 0)%Z then Z.abs (Z.quot (i - 1) 2) else 0%Z.
Definition axis_p2 (i : Z) : Z :=
  if (0 <? i)%Z then Z.quot (i + 1) 2
  else if (i <? 0)%Z then Z.abs (Z.quot i 2) else 0%Z.

(** Room data read by the function (room.hpp:97,105,108-114). *)
Record shoebox := {
  sb_size : list R;                 (* shoebox_size, D entries *)
  sb_abs  : nat -> nat -> R;        (* shoebox_absorption(band, column) *)
  sb_scat : nat -> nat -> R;        (* shoebox_scattering(band, column) *)
  sb_bands : nat;                   (* n_bands *)
  sb_hybrid : bool;                 (* is_hybrid_sim *)
  sb_mics : list (list R);          (* microphone positions *)
}.
Definition sb_dim (r : shoebox) : nat := length (sb_size r).

(** Eigen [maxCoeff() > 0] of a (bands x cols) array: some coefficient is positive. *)
Definition any_positive (bands cols : nat) (m : nat -> nat -> R) : bool :=
  existsb (fun b => existsb (fun c => if Rlt_dec 0 (m b c) then true else false)
                            (seq 0 cols)) (seq 0 bands).

(** room.cpp:391-396 [transmission_pwr[1]]. *)
Definition transmission1 (r : shoebox) (b c : nat) : R :=
  let t := sqrt (1 - sb_abs r b c) in
  if (any_positive (sb_bands r) (2 * sb_dim r) (sb_scat r) && sb_hybrid r)%bool
  then (t * sqrt (1 - sb_scat r b c))%R else t.

(** room.cpp:386-398: the table of powers; entry i is entry i-1 times entry 1. *)
Fixpoint pwr_entry (r : shoebox) (i : nat) : nat -> nat -> R :=
  match i with
  | O => fun _ _ => 1%R
  | S O => transmission1 r
  | S j => fun b c => (pwr_entry r j b c * transmission1 r b c)%R
  end.
Definition transmission_pwr (r : shoebox) (ism_order : Z) : list (nat -> nat -> R) :=
  map (pwr_entry r) (seq 0 (Z.to_nat (ism_order + 1))).

(** [ImageSource<D>], room.hpp:39-79 (fields set by the shoebox method). *)
Record image := {
  im_loc : list R;
  im_order : Z;
  im_order_xyz : list Z;
  im_att : list R;                 (* one entry per band *)
  im_dirs : list (list R);         (* one (normalised) vector per microphone *)
}.

(** Default element the array is allocated with (room.hpp:61-69). *)
Definition image0 (r : shoebox) : image := {|
  im_loc := repeat 0%R (sb_dim r);
  im_order := 0;
  im_order_xyz := repeat 0%Z (sb_dim r);
  im_att := repeat 1%R (sb_bands r);
  im_dirs := map (fun _ => repeat 0%R (sb_dim r)) (sb_mics r) |}.

(** Euclidean norm and Eigen's [normalized()] (a zero vector is left as it is). *)
Definition norm (v : list R) : R := sqrt (Rsum (map (fun x => x * x)%R v)).
Definition normalized (v : list R) : list R :=
  if Rlt_dec 0 (Rsum (map (fun x => x * x)%R v))
  then map (fun x => x / norm v)%R v else v.

(** room.cpp:456-467 for one axis [d]: multiply the attenuation by two table
    columns; [None] if a table index is out of range. *)
Definition att_step (tab : list (nat -> nat -> R)) (p : point3)
    (att : list R) (d : nat) : option (list R) :=
  let* w := nth_error tab (Z.to_nat (axis_p1 (coord p d))) in
  let* e := nth_error tab (Z.to_nat (axis_p2 (coord p d))) in
  Some (map (fun ba => (snd ba * w (fst ba) (2 * d)%nat * e (fst ba) (2 * d + 1)%nat)%R)
            (combine (seq 0 (length att)) att)).

(** room.cpp:423-468 and 484-500: the image computed for one loop point. *)
Definition make_image (r : shoebox) (src : list R) (tab : list (nat -> nat -> R))
    (p : point3) : option image :=
  let D := sb_dim r in
  let* att := foldM (att_step tab p) (seq 0 D) (repeat 1%R (sb_bands r)) in
  Some {|
    im_loc := map (fun d => axis_loc (nth d (sb_size r) 0%R) (nth d src 0%R) (coord p d)) (seq 0 D);
    im_order := fold_left (fun o d => o + Z.abs (coord p d))%Z (seq 0 D) 0%Z;
    im_order_xyz := map (coord p) (seq 0 D);
    im_att := att;
    im_dirs := map (fun mic => normalized (map (fun d =>
        axis_dir (nth d (sb_size r) 0%R) (nth d src 0%R) (nth d mic 0%R) (coord p d)) (seq 0 D)))
      (sb_mics r) |}.

(** room.cpp:404-471: allocate the array, then write entry [img_src_index++] for
    every loop point.  The accumulator is the array and the next index. *)
Definition write_image (r : shoebox) (src : list R) (tab : list (nat -> nat -> R))
    (st : list (option image) * nat) (p : point3) : option (list (option image) * nat) :=
  let* im := make_image r src tab p in
  let* a := store (fst st) (snd st) (Some im) in
  Some (a, S (snd st)).

(** The whole method.  Cells of the array are [option image] so that a cell that was
    allocated but never written is distinguishable ([None], standing for [image0]). *)
Definition image_source_shoebox (r : shoebox) (src : list R) (ism_order : Z)
    : option (list (option image)) :=
  let tab := transmission_pwr r ism_order in
  let n := n_image_sources (sb_dim r) ism_order in
  let* st := foldM (write_image r src tab) (loop_points (sb_dim r) ism_order)
                   (repeat None (Z.to_nat n), 0%nat) in
  Some (fst st).
