(** /repo/pyroomacoustics/room.py: Room.image_source_model 2117-2178 for one source, Room.direct_snr 2488-2504, AnechoicRoom 2955-3067
    (constructor, is_inside, get_bbox).  Exact arithmetic; [None] is an exception. *)
From Coq Require Import Reals List ZArith Lia Lra Bool.
From Verif Require Import Base Vec ShoeboxModel.
Import ListNotations.
Local Open Scope R_scope.

(** What the engine holds after a run (room.cpp:471-503); [en_damping] has one row per band, [en_dirs] one list per image,
    [en_visible] one row per microphone. *)
Record engine_out := { en_images : list vec; en_orders : list Z; en_damping : list (list R); en_dirs : list (list vec); en_visible : list (list bool) }.
(** the attributes of a source *)
Record stored := { so_images : list vec; so_orders : list Z; so_damping : list (list R); so_dirs : list (list vec) }.

(** room.py:2152-2161: rng.uniform(-max_disp, max_disp, size=(dim, n_images)); [u d i] is the draw in [0, 1) *)
Definition displace (dim : nat) (max_disp : R) (u : nat -> nat -> R) (images : list vec) : list vec :=
  map (fun i => map (fun d => nth d (nth i images []) 0 + (- max_disp + (max_disp - - max_disp) * u d i)) (seq 0 dim)) (seq 0 (length images)).
(** 2117-2178 for one source: new attributes and visibility, one row per microphone; [inside m]: microphone m is in the room *)
Definition image_source_model (dim : nat) (old : stored) (e : engine_out) (n_mics : nat) (inside : nat -> bool) (rand : option (R * (nat -> nat -> R))) : stored * list (list bool) :=
  match en_images e with
  | [] => ({| so_images := so_images old; so_orders := so_orders old; so_damping := so_damping old; so_dirs := [repeat (repeat 0 dim) n_mics] |}, repeat [false] n_mics)
  | _ =>
    ({| so_images := match rand with Some (m, u) => displace dim m u (en_images e) | None => en_images e end;
        so_orders := en_orders e; so_damping := en_damping e; so_dirs := en_dirs e |},
     map (fun m => let row := nth m (en_visible e) [] in if inside m then row else map (fun _ => false) row) (seq 0 n_mics))
  end.

(** room.cpp:404-503 for a shoebox: every image is visible *)
Definition shoebox_engine (r : shoebox) (src : vec) (order : Z) : option engine_out :=
  let* cells := image_source_shoebox r src order in
  let* ims := mapM (fun c => c) cells in
  Some {| en_images := map im_loc ims; en_orders := map im_order ims;
          en_damping := map (fun b => map (fun im => nth b (im_att im) 0) ims) (seq 0 (sb_bands r));
          en_dirs := map im_dirs ims; en_visible := map (fun _ => map (fun _ => true) ims) (sb_mics r) |}.

(** AnechoicRoom.__init__ 2989-3030: a unit box that absorbs everything, order 0, no ray tracing *)
Definition anechoic (dim bands : nat) (mics : list vec) : option shoebox :=
  if Nat.eqb dim 2 || Nat.eqb dim 3 then
    Some {| sb_size := repeat 1 dim; sb_abs := fun _ _ => 1; sb_scat := fun _ _ => 0; sb_bands := bands; sb_hybrid := false; sb_mics := mics |}
  else None.
(** 3035-3038 *)
Definition anechoic_inside (p : vec) : bool := true.
(** a source of an AnechoicRoom after image_source_model *)
Definition anechoic_source (dim bands : nat) (mics : list vec) (src : vec) (old : stored) : option (stored * list (list bool)) :=
  let* r := anechoic dim bands mics in
  let* e := shoebox_engine r src 0 in
  Some (image_source_model dim old e (length mics) (fun m => anechoic_inside (nth m mics [])) None).

(** 3040-3057: minimum and maximum of every coordinate over microphones and sources *)
Definition fold1 (op : R -> R -> R) (l : list R) : R := match l with [] => 0 | a :: t => fold_left op t a end.
Definition anechoic_bbox (dim : nat) (mics : option (list vec)) (sources : list vec) : option (list (R * R)) :=
  match mics, sources with
  | None, [] => None
  | _, _ => let pts := (match mics with Some l => l | None => [] end) ++ sources in
            Some (map (fun d => let xs := map (fun p => nth d p 0) pts in (fold1 Rmin xs, fold1 Rmax xs)) (seq 0 dim))
  end.

(** 2488-2504: [Some None] is infinity; sources with their signals and positions *)
Definition mean2 (s : list R) : R := Rsum (map (fun x => x ^ 2) s) / INR (length s).
Definition direct_snr (sources : list (option (list R) * vec)) (sigma2_awgn : option R) (x : vec) (source : nat) : option (option R) :=
  let* sr := nth_error sources source in
  let* _ := fst sr in
  match sigma2_awgn with
  | None => Some None
  | Some s2 =>
    let* s0 := nth_error sources 0 in
    let* sig0 := fst s0 in
    let d2 := Rsum (map (fun d => (nth d x 0 - nth d (snd sr) 0) ^ 2) (seq 0 (length x))) in
    Some (Some (mean2 sig0 / s2 / (16 * PI ^ 2 * d2)))
  end.
