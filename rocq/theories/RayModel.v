(** Ray tracing part of /repo/pyroomacoustics/libroom_src/room.cpp.

    Simplifications: [float]/[double] are [R]; Eigen vectors are lists; the microphone
    histograms are replaced by the list of entries passed to [log_histogram] (the
    histogram itself is modelled in HistogramModel.v); the draws of the random engine
    are an argument; [while (true)] is a loop with fuel, the fuel is shown to be
    sufficient. *)
From Coq Require Import List ZArith Lia Reals Lra Bool.
From Verif Require Import Base Vec GeometryModel WallModel.
Import ListNotations.
Local Open Scope R_scope.

(** Members of [Room<D>] that are read (room.hpp:88-121). *)
Record room := {
  r_dim : nat;
  r_walls : list wall;
  r_obs : list nat;                 (* obstructing_walls *)
  r_mics : list vec;                (* microphone locations *)
  r_speed : R;                      (* sound_speed *)
  r_ism_order : Z;
  r_ethres : R;                     (* energy_thres *)
  r_tthres : R;                     (* time_thres *)
  r_radius : R;                     (* mic_radius; mic_radius_sq is its square *)
  r_hybrid : bool;                  (* is_hybrid_sim *)
  r_shoebox : option vec;           (* shoebox_size when is_shoebox *)
}.

Definition wall0 : wall :=
  {| w_corners := []; w_origin := []; w_normal := []; w_basis := ([], []); w_flat := [];
     w_abs := []; w_scat := [] |}.
(** [walls[i]] (always used with a valid index, see the theorems). *)
Definition get_wall (r : room) (i : nat) : wall := nth i (r_walls r) wall0.

(** room.cpp:525-538: largest/smallest coordinate [d] of one wall's corners; in 2D the
    third coordinate is 0. *)
Definition wall_coord (agg : list R -> R) (D d : nat) (w : wall) : R :=
  if Nat.ltb d D then agg (map (fun c => nth d c 0) (w_corners w)) else 0.

(** room.cpp:519-563: running maximum/minimum over the walls, one coordinate. *)
Definition bound_max (r : room) (d : nat) : R :=
  match r_walls r with
  | [] => 0
  | w0 :: ws => fold_left (fun m w => let x := wall_coord list_max (r_dim r) d w in
                             if Rltb m x then x else m) ws (wall_coord list_max (r_dim r) d w0)
  end.
Definition bound_min (r : room) (d : nat) : R :=
  match r_walls r with
  | [] => 0
  | w0 :: ws => fold_left (fun m w => let x := wall_coord list_min (r_dim r) d w in
                             if Rltb x m then x else m) ws (wall_coord list_min (r_dim r) d w0)
  end.

(** room.cpp:507-571 [get_max_distance]; stored in [max_dist] by [init] (room.cpp:181). *)
Definition max_distance (r : room) : R :=
  vnorm (vminus (map (bound_min r) (seq 0 3)) (map (bound_max r) (seq 0 3))) + 1.

(** A hit: the point, the wall index, the distance. *)
Record hit := { h_pt : vec; h_wall : nat; h_dist : R }.

(** room.cpp:624-664: try the plane orthogonal to axis [d0].  The remaining axes
    [d[1..D-1]] are all the others; their order only decides which failing check is
    met first. *)
Definition plane_try (D : nat) (eps : R) (size start dir : vec) (d0 : nat) : option hit :=
  let a := Rabs (nth d0 dir 0) in
  if Rltb a eps then None else
  let back := Rltb (nth d0 dir 0) 0 in
  let plane := if back then 0 else nth d0 size 0 in
  let distance := if back then nth d0 start 0 else nth d0 size 0 - nth d0 start 0 in
  let ind_inc := if back then 0%nat else 1%nat in
  if Rltb distance eps then None else
  let ratio := distance / a in
  let result := map (fun i => if Nat.eqb i d0 then plane
                              else nth i start 0 + ratio * nth i dir 0) (seq 0 D) in
  if forallb (fun i => Nat.eqb i d0 ||
        negb (Rleb (nth i result 0) (- eps) || Rleb (nth i size 0 + eps) (nth i result 0))) (seq 0 D)
  then Some {| h_pt := result; h_wall := 2 * d0 + ind_inc; h_dist := vnorm (vminus result start) |}
  else None.

(** room.cpp:620-668: the first plane that succeeds. *)
Fixpoint first_some {A B} (f : A -> option B) (l : list A) : option B :=
  match l with [] => None | a :: l' => match f a with Some b => Some b | None => first_some f l' end end.
Definition next_hit_shoebox (D : nat) (eps : R) (size start end_ : vec) : option hit :=
  first_some (plane_try D eps size start (vminus end_ start)) (seq 0 D).

(** room.cpp:680-702: the loop over walls; [i] counts list positions. *)
Fixpoint nearest (D : nat) (eps : R) (start end_ : vec) (ws : list wall) (i : nat)
    (best : option hit) (hit_dist : R) : option hit :=
  match ws with
  | [] => best
  | w :: ws' =>
      match wall_intersection D eps w start end_ with
      | (ret, Some x) =>
          let t := vnorm (vminus x start) in
          if (-1 <? ret)%Z && (Rltb eps t && Rltb t hit_dist)
          then nearest D eps start end_ ws' (S i) (Some {| h_pt := x; h_wall := i; h_dist := t |}) t
          else nearest D eps start end_ ws' (S i) best hit_dist
      | (_, None) => nearest D eps start end_ ws' (S i) best hit_dist
      end
  end.

(** room.cpp:573-706 [next_wall_hit]; [None] stands for index -1. *)
Definition next_wall_hit (r : room) (eps : R) (start end_ : vec) (scattered : bool) : option hit :=
  match r_shoebox r with
  | Some size => if scattered then None else next_hit_shoebox (r_dim r) eps size start end_
  | None =>
      let ws := if scattered then map (get_wall r) (r_obs r) else r_walls r in
      nearest (r_dim r) eps start end_ ws 0 None (max_distance r)
  end.

(** One call of [log_histogram] (microphone.hpp:113-127). *)
Record entry := { e_mic : nat; e_travel : R; e_energy : list R; e_origin : vec }.

(** room.cpp:768-774, 858-862: probability that a random ray hits the receiver. *)
Definition hit_probability (rad r_sq : R) : R := 1 - sqrt (1 - rad * rad / Rmax (rad * rad) r_sq).

(** room.cpp:708-791 [scat_ray], the entry (if any) for microphone [k]. *)
Definition scat_entry (r : room) (eps : R) (w : wall) (trans : list R)
    (prev hp : vec) (travel : R) (k : nat) (mic : vec) : option entry :=
  if negb (side eps w mic =? side eps w prev)%Z then None else
  let blocked := match r_shoebox r with
                 | Some _ => false
                 | None => match next_wall_hit r eps hp mic true with Some _ => true | None => false end
                 end in
  if blocked then None else
  let to_mic := vminus mic hp in
  let hop := vnorm to_mic in
  let travel_at := travel + hop in
  let p_hit_equal := hit_probability (r_radius r) (hop * hop) in
  let p_lambert := 2 * Rabs (cosine_angle w to_mic) in
  let scat_trans := map2 (fun s t => s * t * p_hit_equal * p_lambert) (w_scat w) trans in
  if Rltb travel_at (r_tthres r * r_speed r) && Rltb (r_ethres r) (list_max scat_trans) then
    let r_sq := travel_at * travel_at in
    let p_hit := hit_probability (r_radius r) r_sq in
    Some {| e_mic := k; e_travel := travel_at;
            e_energy := map (fun e => e / (r_sq * p_hit)) scat_trans; e_origin := hp |}
  else None.

Definition opt_list {A} (o : option A) : list A := match o with Some a => [a] | None => [] end.

(** [for (k = 0; k < microphones.size(); k++)] *)
Definition over_mics (r : room) (f : nat -> vec -> option entry) : list entry :=
  flat_map (fun km => opt_list (f (fst km) (snd km))) (combine (seq 0 (length (r_mics r))) (r_mics r)).

(** State of the ray between two iterations (room.cpp:822-850). *)
Record ray := {
  ry_start : vec; ry_dir : vec; ry_trans : list R; ry_travel : R; ry_count : Z;
}.

(** room.cpp:866-897: the entry of a specular ray at microphone [k], if it passes it. *)
Definition spec_entry (r : room) (eps : R) (s : ray) (hit_distance : R) (k : nat) (mic : vec)
    : option entry :=
  let to_mic := vminus mic (ry_start s) in
  let impact := dot to_mic (ry_dir s) in
  if (Rltb (- eps) impact && Rltb impact (hit_distance + eps)) &&
     Rltb (vnorm (vminus to_mic (vscal impact (ry_dir s)))) (r_radius r + eps)
  then
    let travel_at := ry_travel s + Rabs impact in
    let r_sq := travel_at * travel_at in
    let p_hit := hit_probability (r_radius r) r_sq in
    Some {| e_mic := k; e_travel := travel_at;
            e_energy := map (fun t => t / (r_sq * p_hit)) (ry_trans s); e_origin := ry_start s |}
  else None.

(** One pass through the loop body (room.cpp:854-935): the record of what happened. *)
Record hop := {
  hp_before : ray;                 (* state at the top of the loop *)
  hp_hit : hit;
  hp_spec : list entry;            (* logged by the specular ray *)
  hp_scat : list entry;            (* logged by the scattered rays *)
  hp_after : ray;                  (* state if the loop continues *)
  hp_stop : bool;                  (* the threshold test broke the loop *)
}.

(** [lamb] is the Lambertian sample drawn in this iteration.  [e_thres]: room.cpp:846. *)
Definition ray_step (r : room) (eps e_thres : R) (lamb : wall -> vec) (s : ray) : option hop :=
  match next_wall_hit r eps (ry_start s)
          (vadd (ry_start s) (vscal (max_distance r) (ry_dir s))) false with
  | None => None
  | Some h =>
      let w := get_wall r (h_wall h) in
      let spec := if r_hybrid r && (ry_count s <? r_ism_order r)%Z then []
                  else over_mics r (spec_entry r eps s (h_dist h)) in
      let travel := ry_travel s + h_dist h in
      let trans := map2 Rmult (ry_trans s) (energy_reflection w) in
      let scat := if does_scatter w
                  then over_mics r (scat_entry r eps w trans (ry_start s) (h_pt h) travel) else [] in
      let stop := Rltb (r_tthres r * r_speed r) travel || Rltb (list_max trans) e_thres in
      Some {| hp_before := s; hp_hit := h; hp_spec := spec; hp_scat := scat; hp_stop := stop;
              hp_after := {| ry_start := h_pt h; ry_dir := bounce_dir w (ry_dir s) (lamb w);
                             ry_trans := trans; ry_travel := travel; ry_count := ry_count s + 1 |} |}
  end.

(** The loop; [rng k w] is the sample drawn at the k-th bounce.  [None]: out of fuel. *)
Fixpoint ray_loop (fuel : nat) (r : room) (eps e_thres : R) (rng : nat -> wall -> vec)
    (k : nat) (s : ray) : option (list hop) :=
  match fuel with
  | O => None
  | S fuel' =>
      match ray_step r eps e_thres (rng k) s with
      | None => Some []
      | Some h => if hp_stop h then Some [h]
                  else let* t := ray_loop fuel' r eps e_thres rng (S k) (hp_after h) in Some (h :: t)
      end
  end.

(** room.cpp:809-936 [simul_ray]; the hops in order (all log entries are in them). *)
Definition simul_ray (fuel : nat) (r : room) (eps : R) (rng : nat -> wall -> vec)
    (dir src : vec) (energy_0 : list R) : option (list hop) :=
  ray_loop fuel r eps (list_max energy_0 * r_ethres r) rng 0
    {| ry_start := src; ry_dir := dir; ry_trans := energy_0; ry_travel := 0; ry_count := 0 |}.
