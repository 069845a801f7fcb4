(** /repo/pyroomacoustics/room.py: _update_room_engine_params 1025-1039, set_ray_tracing 1049-1086, _set_ray_tracing_options
    1088-1152, unset_ray_tracing 1154-1157.

    Exact arithmetic.  The volume is an argument (see PolyRoomModel).  [None] is an exception.  The warning about more than
    100000 rays has no effect. *)
From Coq Require Import Reals ZArith Lia Lra Bool.
From Verif Require Import Base.
Local Open Scope R_scope.

Record rt_options := { o_energy_thres : R; o_time_thres : R; o_receiver_radius : R; o_hist_bin_size : R; o_hist_bin_size_samples : Z; o_n_rays : Z; o_n_directions : Z }.
(** what the engine holds; 1012-1016 and 1030-1038 *)
Record rt_engine := { g_c : R; g_max_order : Z; g_energy_thres : R; g_time_thres : R; g_receiver_radius : R; g_hist_bin_size : R; g_hybrid : bool }.
Record rt_room := { r_fs : R; r_c : R; r_volume : R; r_max_order : Z; r_ism_needed : bool; r_rt_needed : bool; r_args : option rt_options; r_engine : option rt_engine }.

(** int() of a float *)
Definition trunc (x : R) : Z := if Rle_dec 0 x then Int_part x else (- Int_part (- x))%Z.
(** 1025-1039; without options there is a KeyError *)
Definition update_engine (r : rt_room) : option rt_room :=
  match r_engine r with
  | None => Some r
  | Some _ =>
      let* o := r_args r in
      Some {| r_fs := r_fs r; r_c := r_c r; r_volume := r_volume r; r_max_order := r_max_order r; r_ism_needed := r_ism_needed r; r_rt_needed := r_rt_needed r; r_args := r_args r;
              r_engine := Some {| g_c := r_c r; g_max_order := r_max_order r; g_energy_thres := o_energy_thres o; g_time_thres := o_time_thres o; g_receiver_radius := o_receiver_radius o; g_hist_bin_size := o_hist_bin_size o; g_hybrid := r_ism_needed r && r_rt_needed r |} |}
  end.
(** 1088-1152; a denominator of zero raises (ZeroDivisionError, or OverflowError from int() of infinity) *)
Definition set_options (r : rt_room) (use : bool) (n_rays : option Z) (receiver_radius energy_thres time_thres hist_bin_size : R) (receiver_n_directions : Z) : option rt_room :=
  let samples := Int_part (r_fs r * hist_bin_size) in
  let* bin := (if Req_EM_T (r_fs r) 0 then None else Some (IZR samples / r_fs r)) in
  let* n := match n_rays with
            | Some n => Some n
            | None => let den := PI * receiver_radius ^ 2 * r_c r * bin in
                      if Req_EM_T den 0 then None else Some (trunc (20 * (r_volume r / den)))
            end in
  update_engine {| r_fs := r_fs r; r_c := r_c r; r_volume := r_volume r; r_max_order := r_max_order r; r_ism_needed := r_ism_needed r; r_rt_needed := use;
                   r_args := Some {| o_energy_thres := energy_thres; o_time_thres := time_thres; o_receiver_radius := receiver_radius; o_hist_bin_size := bin; o_hist_bin_size_samples := samples; o_n_rays := n; o_n_directions := receiver_n_directions |};
                   r_engine := r_engine r |}.
(** 1049-1086 *)
Definition set_ray_tracing (r : rt_room) := set_options r true.
(** 1154-1157 *)
Definition unset_ray_tracing (r : rt_room) : option rt_room :=
  update_engine {| r_fs := r_fs r; r_c := r_c r; r_volume := r_volume r; r_max_order := r_max_order r; r_ism_needed := r_ism_needed r; r_rt_needed := false; r_args := r_args r; r_engine := r_engine r |}.
(** 1197-1200 *)
Definition set_sound_speed (r : rt_room) (c : R) : option rt_room :=
  update_engine {| r_fs := r_fs r; r_c := c; r_volume := r_volume r; r_max_order := r_max_order r; r_ism_needed := r_ism_needed r; r_rt_needed := r_rt_needed r; r_args := r_args r; r_engine := r_engine r |}.
(** 1005-1023: the engine is created with the current options *)
Definition init_engine (r : rt_room) : option rt_room :=
  let* o := r_args r in
  Some {| r_fs := r_fs r; r_c := r_c r; r_volume := r_volume r; r_max_order := r_max_order r; r_ism_needed := r_ism_needed r; r_rt_needed := r_rt_needed r; r_args := r_args r;
          r_engine := Some {| g_c := r_c r; g_max_order := r_max_order r; g_energy_thres := o_energy_thres o; g_time_thres := o_time_thres o; g_receiver_radius := o_receiver_radius o; g_hist_bin_size := o_hist_bin_size o; g_hybrid := r_ism_needed r && r_rt_needed r |} |}.
(** 954-985, 1005-1023: the constructor, as far as ray tracing goes *)
Definition make_room (fs c volume : R) (max_order : Z) (ray_tracing : bool) : option rt_room :=
  let* r := set_options {| r_fs := fs; r_c := c; r_volume := volume; r_max_order := max_order; r_ism_needed := (0 <=? max_order)%Z; r_rt_needed := ray_tracing; r_args := None; r_engine := None |}
              ray_tracing None (1 / 2) (1 / 10000000) 10 (4 / 1000) 720 in
  init_engine r.
