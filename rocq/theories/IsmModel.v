(** Image source model of general (polyhedral) rooms, room.cpp:184-381 of
    /repo/pyroomacoustics/libroom_src.

    Simplifications: an [ImageSource] and its chain of [parent] pointers is the list of
    (location, generating wall) pairs from the image back to the real source; that list
    is all that is read through the pointers.  [max_order] is a natural number (a
    negative order recurses without the depth test).  Unset Eigen vectors are [None]. *)
From Coq Require Import List ZArith Lia Reals Lra Bool.
From Verif Require Import Base Vec GeometryModel WallModel RayModel.
Import ListNotations.
Local Open Scope R_scope.

(** [gen_wall] is -1 for the real source. *)
Notation node := (list R * Z)%type (only parsing).

(** room.cpp:353-377: does the obstructing wall [wid] block the segment from the head of
    [chain] to [p]? *)
Definition blocks (r : room) (eps : R) (p loc : vec) (gen : Z) (has_parent : bool) (wid : nat) : bool :=
  if (Z.of_nat wid =? gen)%Z then false else
  match wall_intersection (r_dim r) eps (get_wall r wid) loc p with
  | (ret, Some x) =>
      if (ret =? 0)%Z || (ret =? 2)%Z then
        if has_parent then
          let g := get_wall r (Z.to_nat gen) in
          let img_side := side eps g loc in
          let isect_side := side eps g x in
          negb (img_side =? isect_side)%Z && negb (isect_side =? 0)%Z
        else true
      else false
  | (_, None) => false
  end.

(** room.cpp:337-381 [is_obstructed_dfs] *)
Definition is_obstructed (r : room) (eps : R) (p loc : vec) (gen : Z) (has_parent : bool) : bool :=
  existsb (blocks r eps p loc gen has_parent) (r_obs r).

(** room.cpp:293-335 [is_visible_dfs]; the result is the source direction when visible. *)
Fixpoint is_visible (r : room) (eps : R) (p : vec) (chain : list node) : option vec :=
  match chain with
  | [] => None
  | (loc, gen) :: parents =>
      let has_parent := match parents with [] => false | _ => true end in
      if is_obstructed r eps p loc gen has_parent then None else
      match parents with
      | [] => Some (vnormalized (vminus p loc))
      | _ =>
          match wall_intersection (r_dim r) eps (get_wall r (Z.to_nat gen)) p loc with
          | (ret, Some x) => if (0 <=? ret)%Z then is_visible r eps x parents else None
          | (_, None) => None
          end
      end
  end.

(** What is pushed on the stack (room.hpp:39-79). *)
Record image := {
  i_loc : vec; i_att : list R; i_order : Z; i_gen : Z;
  i_vis : list bool; i_dirs : list (option (list R));
}.

Definition is_some {A} (o : option A) : bool := match o with Some _ => true | None => false end.

(** room.cpp:280-283: attenuation of the reflected image. *)
Definition reflect_att (r : room) (w : wall) (att : list R) : list R :=
  let a := map2 Rmult att (transmission w) in
  if Rltb 0 (list_max (w_scat w)) && r_hybrid r
  then map2 Rmult a (map (fun s => sqrt (1 - s)) (w_scat w)) else a.

(** room.cpp:243-291 [image_sources_dfs]: the images pushed, in order, and the final
    [source_direction] of the node itself (the caller reuses the object for its next
    wall, so directions of invisible microphones are left over from earlier walls). *)
Fixpoint dfs (r : room) (eps : R) (max_order : nat) (chain : list node) (att : list R) (order : Z)
    (dirs : list (option (list R))) : list image * list (option (list R)) :=
  match chain with
  | [] => ([], dirs)
  | (loc, gen) :: _ =>
    let vis := map (fun mic => is_visible r eps mic chain) (r_mics r) in
    let dirs' := map2 (fun v d => match v with Some x => Some x | None => d end) vis dirs in
    let flags := map is_some vis in
    let here := if existsb (fun b => b) flags
                then [ {| i_loc := loc; i_att := att; i_order := order; i_gen := gen;
                          i_vis := flags; i_dirs := dirs' |} ] else [] in
    match max_order with
    | O => (here, dirs')
    | S n =>
        let step st iw :=
          let w := snd iw in
          let '(dir, q) := reflect eps w loc in
          if (dir <=? 0)%Z then st else
          let '(imgs, d) := dfs r eps n ((q, Z.of_nat (fst iw)) :: chain)
                                (reflect_att r w att) (order + 1) (snd st) in
          (fst st ++ imgs, d) in
        let st := fold_left step (combine (seq 0 (length (r_walls r))) (r_walls r))
                            ([], repeat None (length (r_mics r))) in
        (here ++ fst st, dirs')
    end
  end.

(** The arrays exposed to Python (room.hpp:118-128). *)
Record arrays := {
  a_sources : list vec; a_orders : list Z; a_gens : list Z; a_atts : list (list R);
  a_vis : list (list bool); a_dirs : list (option (list R));
}.

(** room.cpp:223-237: store the popped image at column [i]; [a_dirs] is flat with
    [length mics] columns per image. *)
Fixpoint store_all {A} (l : list A) (at_ : nat) (vs : list A) : option (list A) :=
  match vs with
  | [] => Some l
  | v :: vs' => let* l' := store l at_ v in store_all l' (S at_) vs'
  end.
Definition fill_col (n_mics : nat) (a : arrays) (i : nat) (im : image) : option arrays :=
  let* s := store (a_sources a) i (i_loc im) in
  let* g := store (a_gens a) i (i_gen im) in
  let* o := store (a_orders a) i (i_order im) in
  let* t := store (a_atts a) i (i_att im) in
  let* v := store (a_vis a) i (i_vis im) in
  let* d := store_all (a_dirs a) (i * n_mics) (firstn n_mics (i_dirs im)) in
  Some {| a_sources := s; a_orders := o; a_gens := g; a_atts := t; a_vis := v; a_dirs := d |}.

(** [for (i = n_sources - 1; i >= 0; i--)], one pop per iteration; the stack is a list
    with the top first. *)
Fixpoint fill_loop (n_mics : nat) (a : arrays) (stack : list image) : option arrays :=
  match stack with
  | [] => Some a
  | top :: rest => let* a' := fill_col n_mics a (length rest) top in fill_loop n_mics a' rest
  end.

(** room.cpp:207-241 [fill_sources]: nothing is resized or written when the stack is
    empty. *)
Definition fill_sources (n_mics : nat) (old : arrays) (stack : list image) : option (nat * arrays) :=
  match stack with
  | [] => Some (0%nat, old)
  | _ =>
    let n := length stack in
    let fresh := {| a_sources := repeat [] n; a_orders := repeat 0%Z n; a_gens := repeat 0%Z n;
                    a_atts := repeat [] n; a_vis := repeat [] n;
                    a_dirs := repeat None (n * n_mics) |} in
    let* a := fill_loop n_mics fresh stack in Some (n, a)
  end.

(** room.cpp:184-205 [image_source_model] of a general room; [n_bands] is the number of
    bands of the first wall (room.cpp:164). *)
Definition n_bands (r : room) : nat := length (w_abs (get_wall r 0)).
Definition ism_images (r : room) (eps : R) (src : vec) : list image :=
  fst (dfs r eps (Z.to_nat (r_ism_order r)) [(src, (-1)%Z)] (repeat 1 (n_bands r)) 0
           (repeat None (length (r_mics r)))).
Definition image_source_model (r : room) (eps : R) (old : arrays) (src : vec) : option (nat * arrays) :=
  fill_sources (length (r_mics r)) old (rev (ism_images r eps src)).
