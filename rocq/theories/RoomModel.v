(** The bookkeeping of a Room object (/repo/pyroomacoustics/room.py) around the simulators:
    which configuration each stage sees, and which results are cached.

    The numerical stages are parameters: [engine_ism] (C++ image source search),
    [trace] (C++ ray tracer, per microphone), [ism_ir] and [rt_ir] (the two RIR builders),
    [post] (optional high-pass filter).  [None] is a raised exception; a raised exception
    ends the sequence of calls.  Not modelled: directivities, randomised image sources,
    the room geometry itself. *)
From Coq Require Import List ZArith Lia Reals Bool.
From Verif Require Import Base.
Import ListNotations.
Local Open Scope R_scope.

(** room.py:2344-2347: the parts are summed into a buffer of the longest length. *)
Definition add_parts (a b : list R) : list R :=
  map (fun i => nth i a 0 + nth i b 0) (seq 0 (Nat.max (length a) (length b))).

Section Room.
Context {pos air rtopt image hist : Type}.
(** mic_hist_res (seconds) of the ray tracing options *)
Variable bin_size : rtopt -> R.
Variable inside : pos -> bool.
(** room.cpp: the images seen by at least one of the given microphones, each with one
    visibility flag per microphone. *)
Variable engine_ism : list pos -> pos -> list (image * list bool).
(** room.cpp: histogram collected at a microphone (source position, microphone position,
    bin width of that microphone in meters, options, speed of sound, hybrid flag). *)
Variable trace : pos -> pos -> R -> rtopt -> R -> bool -> hist.
(** the image that SoundSource's constructor stores: the source itself, without damping *)
Variable direct : pos -> image.
(** simulation/ism.py: RIR from a non-empty list of images *)
Variable ism_ir : list image -> pos -> R -> option air -> list R.
(** simulation/rt.py *)
Variable rt_ir : hist -> pos -> pos -> R -> R -> option air -> list R.
Variable post : list R -> list R.

(** room.hpp: engine parameters; a microphone keeps the bin width in meters it was made with
    (room.hpp:194-199, microphone.hpp:59-71). *)
Record engine := { e_c : R; e_rt : rtopt; e_hybrid : bool; e_mics : list (pos * R) }.

(** soundsource.py:24-100; [s_dirs]: first dimension of [directions], if set. *)
Record src := { s_pos : pos; s_images : list image; s_dirs : option nat }.
(** An entry of [self.visibility]: a boolean array (n_mics, n_images), or the integer array
    np.zeros((n_mics, 1)) *)
Inductive vis := Mask (rows : list (list bool)) | Ints (n_mics : nat).

Record room := {
  c : R;
  air_absorption : option air;
  ism_needed : bool; rt_needed : bool; air_abs_needed : bool;
  ism_done : bool; rt_done : bool; rir_done : bool;
  rt_args : rtopt;
  sources : list src;
  mic_array : option (list pos);
  eng : engine;
  visibility : option (list vis);
  rt_histograms : option (list (list hist));  (* [mic][source] *)
  rir : option (list (list (list R)))         (* [mic][source] *)
}.

Definition set_eng (e : engine) (st : room) : room :=
  {| c := c st; air_absorption := air_absorption st; ism_needed := ism_needed st; rt_needed := rt_needed st;
     air_abs_needed := air_abs_needed st; ism_done := ism_done st; rt_done := rt_done st; rir_done := rir_done st;
     rt_args := rt_args st; sources := sources st; mic_array := mic_array st; eng := e; visibility := visibility st;
     rt_histograms := rt_histograms st; rir := rir st |}.
(** room.py:1025-1039 *)
Definition update_engine (st : room) : room :=
  set_eng {| e_c := c st; e_rt := rt_args st; e_hybrid := ism_needed st && rt_needed st; e_mics := e_mics (eng st) |} st.
(** room.py:995-1023: a new engine, with the empty list of microphones. *)
Definition init_engine (st : room) : room :=
  set_eng {| e_c := c st; e_rt := rt_args st; e_hybrid := ism_needed st && rt_needed st; e_mics := [] |} st.

(** room.py:869-993 *)
Definition init (ism : bool) (c0 : R) (air0 : option air) (rt0 : rtopt) (use_rt : bool) : room :=
  {| c := c0; air_absorption := air0; ism_needed := ism; rt_needed := use_rt;
     air_abs_needed := match air0 with Some _ => true | None => false end;
     ism_done := false; rt_done := false; rir_done := false; rt_args := rt0; sources := []; mic_array := None;
     eng := {| e_c := c0; e_rt := rt0; e_hybrid := ism && use_rt; e_mics := [] |};
     visibility := None; rt_histograms := None; rir := None |}.

(** room.py:1931-1944 *)
Definition add_source (p : pos) (st : room) : option room :=
  if negb (inside p) then None else
  Some {| c := c st; air_absorption := air_absorption st; ism_needed := ism_needed st; rt_needed := rt_needed st;
     air_abs_needed := air_abs_needed st; ism_done := ism_done st; rt_done := rt_done st; rir_done := rir_done st;
     rt_args := rt_args st; sources := sources st ++ [{| s_pos := p; s_images := [direct p]; s_dirs := None |}];
     mic_array := mic_array st; eng := eng st; visibility := visibility st;
     rt_histograms := rt_histograms st; rir := rir st |}.
(** room.py:1946-1963; room.hpp:194-199 *)
Definition add_mics (ps : list pos) (st : room) : option room :=
  let e := eng st in
  Some {| c := c st; air_absorption := air_absorption st; ism_needed := ism_needed st; rt_needed := rt_needed st;
     air_abs_needed := air_abs_needed st; ism_done := ism_done st; rt_done := rt_done st; rir_done := rir_done st;
     rt_args := rt_args st; sources := sources st;
     mic_array := Some (match mic_array st with None => ps | Some old => old ++ ps end);
     eng := {| e_c := e_c e; e_rt := e_rt e; e_hybrid := e_hybrid e;
               e_mics := e_mics e ++ map (fun p => (p, bin_size (e_rt e) * e_c e)) ps |};
     visibility := visibility st; rt_histograms := rt_histograms st; rir := rir st |}.
(** room.py:1088-1152 *)
Definition set_rt (o : rtopt) (st : room) : option room :=
  Some (update_engine
  {| c := c st; air_absorption := air_absorption st; ism_needed := ism_needed st; rt_needed := true;
     air_abs_needed := air_abs_needed st; ism_done := ism_done st; rt_done := rt_done st; rir_done := rir_done st;
     rt_args := o; sources := sources st; mic_array := mic_array st; eng := eng st; visibility := visibility st;
     rt_histograms := rt_histograms st; rir := rir st |}).
(** room.py:1154-1157 *)
Definition unset_rt (st : room) : option room :=
  Some (update_engine
  {| c := c st; air_absorption := air_absorption st; ism_needed := ism_needed st; rt_needed := false;
     air_abs_needed := air_abs_needed st; ism_done := ism_done st; rt_done := rt_done st; rir_done := rir_done st;
     rt_args := rt_args st; sources := sources st; mic_array := mic_array st; eng := eng st; visibility := visibility st;
     rt_histograms := rt_histograms st; rir := rir st |}).
(** room.py:1159-1191 *)
Definition set_air (a : air) (st : room) : option room :=
  Some {| c := c st; air_absorption := Some a; ism_needed := ism_needed st; rt_needed := rt_needed st;
     air_abs_needed := true; ism_done := ism_done st; rt_done := rt_done st; rir_done := rir_done st;
     rt_args := rt_args st; sources := sources st; mic_array := mic_array st; eng := eng st; visibility := visibility st;
     rt_histograms := rt_histograms st; rir := rir st |}.
(** room.py:1193-1195 *)
Definition unset_air (st : room) : option room :=
  Some {| c := c st; air_absorption := air_absorption st; ism_needed := ism_needed st; rt_needed := rt_needed st;
     air_abs_needed := false; ism_done := ism_done st; rt_done := rt_done st; rir_done := rir_done st;
     rt_args := rt_args st; sources := sources st; mic_array := mic_array st; eng := eng st; visibility := visibility st;
     rt_histograms := rt_histograms st; rir := rir st |}.
(** room.py:1197-1200 *)
Definition set_speed (x : R) (st : room) : option room :=
  Some (update_engine
  {| c := x; air_absorption := air_absorption st; ism_needed := ism_needed st; rt_needed := rt_needed st;
     air_abs_needed := air_abs_needed st; ism_done := ism_done st; rt_done := rt_done st; rir_done := rir_done st;
     rt_args := rt_args st; sources := sources st; mic_array := mic_array st; eng := eng st; visibility := visibility st;
     rt_histograms := rt_histograms st; rir := rir st |}).
(** room.py:1457-1461, the part that concerns the engine *)
Definition extrude (st : room) : option room := Some (init_engine st).

(** room.py:2117-2181, for one source: the source with its images, and its visibility *)
Definition ism_source (mics : list pos) (e : engine) (s : src) : src * vis :=
  let imgs := engine_ism (map fst (e_mics e)) (s_pos s) in
  match imgs with
  | [] => ({| s_pos := s_pos s; s_images := s_images s; s_dirs := Some (length mics) |}, Ints (length mics))
  | _ => ({| s_pos := s_pos s; s_images := map fst imgs; s_dirs := Some (length mics) |},
          Mask (map (fun m => map (fun iv => nth (fst m) (snd iv) false && inside (snd m)) imgs)
                    (combine (seq 0 (length mics)) mics)))
  end.
(** room.py:2117-2181 *)
Definition image_source_model (st : room) : option room :=
  let* mics := match mic_array st, sources st with
               | Some l, _ => Some l
               | None, [] => Some []
               | None, _ => None
               end in
  let res := map (ism_source mics (eng st)) (sources st) in
  Some {| c := c st; air_absorption := air_absorption st; ism_needed := ism_needed st; rt_needed := rt_needed st;
     air_abs_needed := air_abs_needed st; ism_done := true; rt_done := rt_done st; rir_done := rir_done st;
     rt_args := rt_args st; sources := map fst res; mic_array := mic_array st; eng := eng st;
     visibility := Some (map snd res); rt_histograms := rt_histograms st; rir := rir st |}.
(** room.py:2183-2267.  rt_histograms[r][s] is read off engine microphone r. *)
Definition ray_tracing (st : room) : option room :=
  let* mics := mic_array st in
  let e := eng st in
  let* hs := mapM (fun r => let* em := nth_error (e_mics e) r in
                    Some (map (fun s => trace (s_pos s) (fst em) (snd em) (e_rt e) (e_c e) (e_hybrid e)) (sources st)))
                  (seq 0 (length mics)) in
  Some {| c := c st; air_absorption := air_absorption st; ism_needed := ism_needed st; rt_needed := rt_needed st;
     air_abs_needed := air_abs_needed st; ism_done := ism_done st; rt_done := true; rir_done := rir_done st;
     rt_args := rt_args st; sources := sources st; mic_array := mic_array st; eng := eng st;
     visibility := visibility st; rt_histograms := Some hs; rir := rir st |}.

(** numpy: [a[:, mask]] / [a[:, ints]] (ism.py:132-133) *)
Fixpoint filter_mask {A} (l : list A) (mask : list bool) : option (list A) :=
  match l, mask with
  | [], [] => Some []
  | x :: l', b :: m' => let* r := filter_mask l' m' in Some (if b then x :: r else r)
  | _, _ => None
  end.
Definition select (images : list image) (v : vis) (m : nat) : option (list image) :=
  match v with
  | Mask rows => let* row := nth_error rows m in filter_mask images row
  | Ints n => if (m <? n)%nat then let* x := nth_error images 0 in Some [x] else None
  end.
(** room.py:2306-2320 *)
Definition ism_part (st : room) (m : nat) (mic : pos) (s : nat) (source : src) : option (list R) :=
  let* nd := s_dirs source in
  if negb (m <? nd)%nat then None else
  let* vs := visibility st in
  let* v := nth_error vs s in
  let* sel := select (s_images source) v m in
  match sel with
  | [] => None   (* time.max() of an empty array, ism.py:247 *)
  | _ => Some (ism_ir sel mic (c st) (air_absorption st))
  end.
(** room.py:2322-2337 *)
Definition rt_part (st : room) (m : nat) (mic : pos) (s : nat) (source : src) : option (list R) :=
  let* hs := rt_histograms st in
  let* row := nth_error hs m in
  let* h := nth_error row s in
  Some (rt_ir h (s_pos source) mic (bin_size (rt_args st)) (c st) (air_absorption st)).
(** room.py:2295-2353 *)
Definition pair_rir (st : room) (m : nat) (mic : pos) (s : nat) (source : src) : option (list R) :=
  let* parts :=
    match ism_needed st, rt_needed st with
    | true, true => let* a := ism_part st m mic s source in let* b := rt_part st m mic s source in Some (add_parts a b)
    | true, false => ism_part st m mic s source
    | false, true => rt_part st m mic s source
    | false, false => None
    end in
  Some (post parts).
(** room.py:2269-2355 *)
Definition compute_rir (st : room) : option room :=
  let* st1 := if ism_needed st && negb (ism_done st) then image_source_model st else Some st in
  let* st2 := if rt_needed st1 && negb (rt_done st1) then ray_tracing st1 else Some st1 in
  let* mics := mic_array st2 in
  let* r := mapM (fun mm => mapM (fun ss => pair_rir st2 (fst mm) (snd mm) (fst ss) (snd ss))
                                 (combine (seq 0 (length (sources st2))) (sources st2)))
                 (combine (seq 0 (length mics)) mics) in
  Some {| c := c st2; air_absorption := air_absorption st2; ism_needed := ism_needed st2; rt_needed := rt_needed st2;
     air_abs_needed := air_abs_needed st2; ism_done := ism_done st2; rt_done := rt_done st2; rir_done := true;
     rt_args := rt_args st2; sources := sources st2; mic_array := mic_array st2; eng := eng st2;
     visibility := visibility st2; rt_histograms := rt_histograms st2; rir := Some r |}.

Inductive op :=
| AddSource (p : pos) | AddMics (ps : list pos) | SetRT (o : rtopt) | UnsetRT | SetAir (a : air) | UnsetAir
| SetSpeed (x : R) | Compute | Extrude.
Definition step (o : op) (st : room) : option room :=
  match o with
  | AddSource p => add_source p st
  | AddMics ps => add_mics ps st
  | SetRT x => set_rt x st
  | UnsetRT => unset_rt st
  | SetAir a => set_air a st
  | UnsetAir => unset_air st
  | SetSpeed x => set_speed x st
  | Compute => compute_rir st
  | Extrude => extrude st
  end.
Definition run (ops : list op) (st : room) : option room := foldM (fun st o => step o st) ops st.
End Room.
