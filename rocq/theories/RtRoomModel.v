(** Sources, microphones and ray tracing of a room.
    /repo/pyroomacoustics/room.py: add 1916-1971, add_microphone 1973-2003, add_microphone_array 2005-2053, add_source
    2055-2102, add_soundsource 2104-2115, ray_tracing 2183-2267, compute_rir 2269-2355 (the flags are in RoomModel);
    beamforming.py: MicrophoneArray.set_directivity 392-430, append 527-545;
    libroom_src/room.hpp: add_mic 194-199, reset_mics 201-205; microphone.hpp: 38-118.

    Exact arithmetic.  [None] is an exception.  The options are those of RtOptModel, the histograms those of
    HistogramModel.  Arguments: [inside] (is_inside), the Fibonacci directions, the kd-tree, the hits that the rays of a
    source leave at a microphone (RayModel), the responses computed from images and from histograms (IsmDirModel,
    RtModel), the high-pass filter.
    Simplified: one location for each add_microphone; python's number of bands is that of the engine; a room whose array
    has no microphone is a room without array; MicrophoneArray objects are not shared between rooms. *)
From Coq Require Import List ZArith Lia Reals Lra Bool.
From Verif Require Import Base Vec HistogramModel RtOptModel.
Import ListNotations.
Local Open Scope R_scope.

Inductive dclass := Cardioid | Measured | Other.
(** [d_rays n]: sample_rays, [None] when not implemented; [d_resp v]: response in direction v *)
Record directivity := { d_class : dclass; d_grid : list vec; d_resp : vec -> list R; d_impulse : bool; d_rays : Z -> option (list vec * list (list R)) }.
Record source := { so_pos : vec; so_dir : option directivity }.
(** [q_mics]: columns of mic_array.R with their directivities; [q_engine]: the microphones of the engine *)
Record room := { q_opts : rt_room; q_dim : nat; q_bands : nat; q_sources : list source; q_mics : list (vec * option directivity); q_engine : list microphone }.

Section Room.
Variable inside : vec -> bool.
Variable g : garbage.

(** 2204-2217 room.hpp:194-199: made with the parameters the engine has now *)
Definition engine_mic (st : room) (loc : vec) : option microphone :=
  let* e := r_engine (q_opts st) in Some (make_mic g loc (q_bands st) (g_hist_bin_size e * g_c e) (g_time_thres e * g_c e)).
(** add 1931-1947 *)
Definition add_src (st : room) (s : source) : option room :=
  if negb (Nat.eqb (length (so_pos s)) (q_dim st)) then None
  else if negb (inside (so_pos s)) then None
  else Some {| q_opts := q_opts st; q_dim := q_dim st; q_bands := q_bands st; q_sources := q_sources st ++ [s]; q_mics := q_mics st; q_engine := q_engine st |}.
(** add 1949-1965 *)
Definition add_mics (st : room) (ms : list (vec * option directivity)) : option room :=
  if negb (forallb (fun m => Nat.eqb (length (fst m)) (q_dim st)) ms) then None
  else let* es := mapM (fun m => engine_mic st (fst m)) ms in
       Some {| q_opts := q_opts st; q_dim := q_dim st; q_bands := q_bands st; q_sources := q_sources st; q_mics := q_mics st ++ ms; q_engine := q_engine st ++ es |}.
Definition is_some {A} (o : option A) : bool := match o with Some _ => true | None => false end.
(** add_source 2077-2102 of a position *)
Definition add_source (st : room) (pos : vec) (dir : option directivity) : option room :=
  if negb (Nat.eqb (q_dim st) 3) && is_some dir then None
  else match dir with
       | None => add_src st {| so_pos := pos; so_dir := None |}
       | Some d => match d_class d with
                   | Cardioid | Measured => add_src st {| so_pos := pos; so_dir := Some d |}
                   | Other => Some st
                   end
       end.
(** add_soundsource 2104-2115 *)
Definition add_soundsource (st : room) (s : source) (dir : option directivity) : option room :=
  add_src st (match dir with None => s | Some d => {| so_pos := so_pos s; so_dir := Some d |} end).
(** add_microphone 1990-2003 *)
Definition add_microphone (st : room) (loc : vec) (dir : option directivity) : option room :=
  if negb (Nat.eqb (q_dim st) 3) && is_some dir then None else add_mics st [(loc, dir)].
(** set_directivity beamforming.py:392-430: none, one for all, or a list *)
Inductive directivities := DNone | DOne (d : directivity) | DList (ds : list (option directivity)).
Definition spread (n : nat) (ds : directivities) : option (list (option directivity)) :=
  match ds with
  | DNone => Some (repeat None n)
  | DOne d => Some (repeat (Some d) n)
  | DList l => if Nat.eqb (length l) n then Some l else None
  end.
(** add_microphone_array 2028-2053, of a plain array of locations *)
Definition add_microphone_array (st : room) (locs : list vec) (ds : directivities) : option room :=
  let given := match ds with DNone => false | _ => true end in
  if r_rt_needed (q_opts st) && given then None
  else if negb (Nat.eqb (q_dim st) 3) && given then None
  else let* l := spread (length locs) ds in add_mics st (combine locs l).
(** the options 1049-1200 *)
Definition set_opts (st : room) (o : rt_room) : room :=
  {| q_opts := o; q_dim := q_dim st; q_bands := q_bands st; q_sources := q_sources st; q_mics := q_mics st; q_engine := q_engine st |}.

(** ** Ray tracing *)
Variable fib : Z -> list vec.
Variable nearest : list vec -> vec -> nat.
(** [hits s dirs energies pos m]: what the rays of source number s leave at microphone m, (distance, energies, origin) *)
Variable hits : nat -> list vec -> list (list R) -> vec -> nat -> list (R * list R * list R).
(** new cells of growing histograms *)
Variable gs : nat -> garbage.

(** the directions a directive microphone tells apart 2213-2219 *)
Definition directions (n_dirs : Z) (d : directivity) : list vec := match d_class d with Measured => d_grid d | _ => fib n_dirs end.
Record response := { p_response : list (list R); p_impulse : bool }.
(** 2202-2226, microphone.hpp:83-102 *)
Definition prepare (n_dirs : Z) (m : microphone) (dir : option directivity) : microphone * (vec -> nat) * response :=
  match dir with
  | None => (set_directions g m 1, fun _ => 0%nat, {| p_response := [[1]]; p_impulse := false |})
  | Some d => let ds := directions n_dirs d in
              (set_directions g m (length ds), nearest ds, {| p_response := map (d_resp d) ds; p_impulse := d_impulse d |})
  end.
(** numpy.broadcast_to(energies, (n_rays, n_bands)) 2239 *)
Definition broadcast (n_rays n_bands : nat) (e : list (list R)) : option (list (list R)) :=
  let* rows := mapM (fun row => if Nat.eqb (length row) n_bands then Some row
                                else match row with [x] => Some (repeat x n_bands) | _ => None end) e in
  if Nat.eqb (length rows) n_rays then Some rows else match rows with [r] => Some (repeat r n_rays) | _ => None end.
(** 2233-2239 *)
Definition rays_of (st : room) (n_rays : Z) (s : source) : option (list vec * list (list R)) :=
  match so_dir s with
  | None => Some (fib n_rays, repeat (repeat 1 (q_bands st)) (Z.to_nat n_rays))
  | Some d => let* re := d_rays d n_rays in
              let* e := broadcast (Z.to_nat n_rays) (q_bands st) (snd re) in
              Some (fst re, e)
  end.
Definition omni (st : room) : bool := forallb (fun m => negb (is_some (snd m))) (q_mics st) && forallb (fun s => negb (is_some (so_dir s))) (q_sources st).
(** the microphones after the rays of a source 2242-2254; in 2D everything must be omnidirectional *)
Definition trace (st : room) (n_rays : Z) (i : nat) (s : source) (ms : list (microphone * (vec -> nat) * response)) : option (list (microphone * (vec -> nat) * response)) :=
  let* re := rays_of st n_rays s in
  if (Nat.eqb (q_dim st) 3 && negb (Nat.eqb (length (fst re)) (length (snd re))))%bool then None
  else if (negb (Nat.eqb (q_dim st) 3) && negb (omni st))%bool then None
  else mapM (fun km => let '(m, q, r) := snd km in
                       let* m' := log_all gs 0 q m (hits i (fst re) (snd re) (so_pos s) (fst km)) in Some (m', q, r))
            (combine (seq 0 (length ms)) ms).
(** room.hpp:201-205 *)
Definition reset_mics (ms : list (microphone * (vec -> nat) * response)) := map (fun mqr => let '(m, q, r) := mqr in (mic_reset g m (mi_bands m), q, r)) ms.
(** the loop over the sources 2231-2264: for each source, the histograms of every microphone *)
Fixpoint trace_all (st : room) (n_rays : Z) (i : nat) (ss : list source) (ms : list (microphone * (vec -> nat) * response)) : option (list (list (list hist))) :=
  match ss with
  | [] => Some []
  | s :: ss => let* ms' := trace st n_rays i s ms in
               let hs := map (fun mqr => mi_hists (fst (fst mqr))) ms' in
               let* rest := trace_all st n_rays (S i) ss (reset_mics ms') in
               Some (hs :: rest)
  end.
(** ray_tracing 2183-2267: (rt_histograms: microphone, source, direction; rt_directional_responses) *)
Definition ray_tracing (st : room) : option (list (list (list hist)) * list response) :=
  let* o := r_args (q_opts st) in
  if Nat.eqb (length (q_mics st)) 0 then None
  else if negb (Nat.eqb (length (q_engine st)) (length (q_mics st))) then None
  else let ms := map (fun md => prepare (o_n_directions o) (fst md) (snd (snd md))) (combine (q_engine st) (q_mics st)) in
       let* by_source := trace_all st (o_n_rays o) 0 (q_sources st) ms in
       Some (map (fun m => map (fun hs => nth m hs []) by_source) (seq 0 (length (q_mics st))), map snd ms).

(** ** Responses *)
(** [ism m s], [rt t0 histograms response bin bin_samples]: the two parts *)
Variable ism : nat -> nat -> option vec.
Variable rt : R -> list hist -> response -> R -> Z -> option vec.
Variable hpf : option (vec -> vec).
(** 2333-2344 *)
Definition pad_add (n : nat) (acc r : vec) : vec := map (fun i => nth i acc 0 + nth i r 0) (seq 0 n).
Definition add_parts (parts : list vec) : option vec :=
  match parts with
  | [] => None
  | [r] => Some r
  | _ => let n := fold_right Nat.max 0%nat (map (@length R) parts) in Some (fold_left (pad_add n) parts (repeat 0 n))
  end.
(** 2298-2350, one pair *)
Definition pair_rir (st : room) (out : list (list (list hist)) * list response) (m s : nat) : option vec :=
  let* mic := nth_error (q_mics st) m in
  let* src := nth_error (q_sources st) s in
  let* early := (if r_ism_needed (q_opts st) then let* r := ism m s in Some [r] else Some []) in
  let* late := (if r_rt_needed (q_opts st)
                then let* o := r_args (q_opts st) in
                     let* hm := nth_error (fst out) m in
                     let* h := nth_error hm s in
                     let* p := nth_error (snd out) m in
                     let* r := rt (vdist (so_pos src) (fst mic) / r_c (q_opts st)) h p (o_hist_bin_size o) (o_hist_bin_size_samples o) in Some [r]
                else Some []) in
  let* r := add_parts (early ++ late) in
  Some (match hpf with Some f => f r | None => r end).
(** compute_rir 2269-2355; the ray tracing runs when it is needed *)
Definition compute_rir (st : room) : option (list (list vec)) :=
  let* out := (if r_rt_needed (q_opts st) then ray_tracing st else Some ([], [])) in
  mapM (fun m => mapM (pair_rir st out m) (seq 0 (length (q_sources st)))) (seq 0 (length (q_mics st))).
End Room.

(** ** The kd-trees of the microphones: microphone.hpp:46, 81-108, std::vector::push_back *)
(** [k_live]: trees allocated and not deleted; [k_next]: next address; [k_cap]: capacity of the vector; [k_mics]: the pointer of
    each microphone.  [None]: a tree that is not alive is deleted or searched, which is undefined behaviour. *)
Record heap := { k_live : list nat; k_next : nat; k_cap : nat; k_mics : list (option nat) }.
Definition delete (p : option nat) (live : list nat) : option (list nat) :=
  match p with
  | None => Some live
  | Some a => if existsb (Nat.eqb a) live then Some (filter (fun b => negb (Nat.eqb a b)) live) else None
  end.
(** the growth of the capacity, [grow n > n] *)
Section Heap.
Variable grow : nat -> nat.
(** push_back: when full, the elements are copied (the destructor is user-declared, so there is no move) with the same pointers,
    and the old ones are destroyed (microphone.hpp:81) *)
Definition push_mic (h : heap) : option heap :=
  if Nat.ltb (length (k_mics h)) (k_cap h)
  then Some {| k_live := k_live h; k_next := k_next h; k_cap := k_cap h; k_mics := k_mics h ++ [None] |}
  else let* live := foldM (fun l p => delete p l) (k_mics h) (k_live h) in
       Some {| k_live := live; k_next := k_next h; k_cap := grow (k_cap h); k_mics := k_mics h ++ [None] |}.
(** set_directions 83-91 ([true]) and make_omni 93-100 ([false]) *)
Definition set_tree (directive : bool) (i : nat) (h : heap) : option heap :=
  let* p := nth_error (k_mics h) i in
  let* live := delete p (k_live h) in
  if directive
  then let* ms := store (k_mics h) i (Some (k_next h)) in Some {| k_live := k_next h :: live; k_next := S (k_next h); k_cap := k_cap h; k_mics := ms |}
  else let* ms := store (k_mics h) i None in Some {| k_live := live; k_next := k_next h; k_cap := k_cap h; k_mics := ms |}.
(** get_dir_bin 120-134 *)
Definition search_tree (i : nat) (h : heap) : option heap :=
  let* p := nth_error (k_mics h) i in
  match p with None => Some h | Some a => if existsb (Nat.eqb a) (k_live h) then Some h else None end.
(** room.py:2202-2254: directions or none for each microphone, then searches *)
Definition trace_trees (directive : list bool) (h : heap) : option heap :=
  let* h := foldM (fun h kd => set_tree (snd kd) (fst kd) h) (combine (seq 0 (length directive)) directive) h in
  foldM (fun h i => search_tree i h) (seq 0 (length directive)) h.
(** the destructor of the room *)
Definition destroy (h : heap) : option (list nat) := foldM (fun l p => delete p l) (k_mics h) (k_live h).
Definition no_mics : heap := {| k_live := []; k_next := 0; k_cap := 0; k_mics := [] |}.
End Heap.
