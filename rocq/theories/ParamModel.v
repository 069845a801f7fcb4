(** /repo/pyroomacoustics/parameters.py: package constants, air and materials, and the resampling of
    coefficients at octave bands of /repo/pyroomacoustics/acoustics.py:326-355, over real numbers.
    Strings that name entries are kept as strings. *)
From Coq Require Import List ZArith Lia Reals String Bool.
From Verif Require Import Base Vec.
Import ListNotations.
Local Open Scope R_scope.

(** ** Constants (parameters.py:182-222) *)
(** A Python dictionary read by [dict[key]] : the binding made last. *)
Fixpoint lookup {V} (key : string) (d : list (string * V)) : option V :=
  match d with [] => None | (k, v) :: t => if String.eqb k key then Some v else lookup key t end.
(** parameters.py:204-206 *)
Definition constants_set {V} (user : list (string * V)) (name : string) (v : V) : list (string * V) := (name, v) :: user.
(** parameters.py:208-218; [None]: NameError *)
Definition constants_get {V} (user defaults : list (string * V)) (name : string) : option V :=
  match lookup name user with Some v => Some v | None => lookup name defaults end.

(** ** Air (parameters.py:226-353) *)
(** parameters.py:226-247 *)
Definition calculate_speed_of_sound (t h : R) : R := 331.4 + 0.6 * t + 0.0124 * h.
(** parameters.py:250-253 *)
Definition calculate_temperature (c h : R) : R := (c - 331.4 - 0.0124 * h) / 0.6.
(** parameters.py:271-279 *)
Definition air_absorption_table : list (string * vec) :=
  let milli := map (fun x => x * / 1000) in
  [("10C_30-50%", milli [0.1; 0.2; 0.5; 1.1; 2.7; 9.4; 29.0]);
   ("10C_50-70%", milli [0.1; 0.2; 0.5; 0.8; 1.8; 5.9; 21.1]);
   ("10C_70-90%", milli [0.1; 0.2; 0.5; 0.7; 1.4; 4.4; 15.8]);
   ("20C_30-50%", milli [0.1; 0.3; 0.6; 1.0; 1.9; 5.8; 20.3]);
   ("20C_50-70%", milli [0.1; 0.3; 0.6; 1.0; 1.7; 4.1; 13.5]);
   ("20C_70-90%", milli [0.1; 0.3; 0.6; 1.1; 1.7; 3.5; 10.6]);
   ("center_freqs", [125; 250; 500; 1000; 2000; 4000; 8000])]%string.
(** Attributes T and H of a Physics object. *)
Record physics := { ph_T : R; ph_H : R }.
(** parameters.py:295-309, [c] being constants.get("c"); [None]: ValueError *)
Definition physics_init (c : R) (temperature humidity : option R) : option physics :=
  let H := match humidity with None => 0 | Some h => h end in
  if Rlt_dec H 0 then None else if Rlt_dec 100 H then None else
  Some {| ph_T := match temperature with None => calculate_temperature c H | Some t => t end; ph_H := H |}.
(** parameters.py:311-317 *)
Definition get_sound_speed (p : physics) : R := calculate_speed_of_sound (ph_T p) (ph_H p).
(** parameters.py:319-344: key and table lookups; [None]: KeyError. Result: coeffs, center_freqs *)
Definition air_key (p : physics) : string :=
  ((if Rlt_dec (ph_T p) 15 then "10C_" else "20C_") ++
   (if Rlt_dec (ph_H p) 50 then "30-50%" else if Rlt_dec (ph_H p) 70 then "50-70%" else "70-90%"))%string.
Definition get_air_absorption (p : physics) : option (vec * vec) :=
  let* co := lookup (air_key p) air_absorption_table in
  let* cf := lookup "center_freqs"%string air_absorption_table in
  Some (co, cf).
(** parameters.py:346-353 ([c0] is constants.get("c"), not used since a temperature is given) *)
Definition from_speed (c0 c : R) : option physics :=
  let H := 0.3 in physics_init c0 (Some (calculate_temperature c H)) (Some H).

(** ** Materials (parameters.py:403-566) *)
(** A dictionary with keys coeffs and (maybe) center_freqs. *)
Record bands := { coeffs : vec; cfreqs : option vec }.
Inductive arg := Flat (a : R) | Named (s : string) | Dict (d : bands) | Other.
Definition nonempty_tail (l : vec) : bool := (1 <? List.length l)%nat.
Section Material.
(** materials_absorption_table and materials_scattering_table, parameters.py:374-400 *)
Variables absorption_table scattering_table : list (string * bands).
(** The assertions parameters.py:494-508 and 510-522; [None] AssertionError or KeyError *)
Definition check_bands (b : bands) : bool :=
  if nonempty_tail (coeffs b) then match cfreqs b with None => false | Some cf => Nat.eqb (List.length (coeffs b)) (List.length cf) end else true.
(** parameters.py:436-525. Result: the attributes energy_absorption and scattering. [scattering = None]
    when the argument is absent. [None]: TypeError, KeyError or AssertionError. *)
Definition material_init (energy_absorption : arg) (scattering : option arg) : option (bands * bands) :=
  let* ea := match energy_absorption with
    | Flat a => Some {| coeffs := [a]; cfreqs := None |}
    | Named s => lookup s absorption_table
    | Dict d => Some d
    | Other => None end in
  let* sc := match match scattering with None => Flat 0 | Some s => s end with
    | Flat a => if nonempty_tail (coeffs ea) then let* cf := cfreqs ea in Some {| coeffs := repeat a (List.length (coeffs ea)); cfreqs := Some cf |}
                else Some {| coeffs := [a]; cfreqs := None |}
    | Named s => lookup s scattering_table
    | Dict d => Some d
    | Other => None end in
  let* ea' := if nonempty_tail (coeffs sc) && Nat.eqb (List.length (coeffs ea)) 1
    then let* cf := cfreqs sc in Some {| coeffs := repeat (nth 0 (coeffs ea) 0) (List.length (coeffs sc)); cfreqs := Some cf |}
    else Some ea in
  if check_bands ea' && check_bands sc then Some (ea', sc) else None.
(** The caller's own dictionary after the call: the object passed is the one assigned to and kept. *)
Definition caller_dict (d : bands) (scattering : option arg) : option bands := let* r := material_init (Dict d) scattering in Some (fst r).
End Material.
Notation material := (bands * bands)%type (only parsing).
(** parameters.py:527-535 *)
Definition is_freq_flat (m : material) : bool := Nat.eqb (List.length (coeffs (fst m))) 1 && Nat.eqb (List.length (coeffs (snd m))) 1.
(** parameters.py:551-566 *)
Definition all_flat (l : list (bands * bands)) : bool := forallb is_freq_flat l.

(** ** Values at octave bands (acoustics.py:309-355) *)
Definition log2 (x : R) : R := ln x / ln 2.
(** scipy interp1d sorts the nodes first (stable sort on x). *)
Fixpoint insert (p : R * R) (l : list (R * R)) : list (R * R) :=
  match l with [] => [p] | q :: t => if Rlt_dec (fst q) (fst p) then q :: insert p t else p :: l end.
Definition sort_nodes (l : list (R * R)) : list (R * R) := fold_right insert [] l.
(** interp1d(kind="linear", fill_value="extrapolate") at one point: searchsorted, clip to 1..n-1, then
    the line through the two neighbours. [None]: two equal nodes (NaN). *)
Definition interp_at (nodes : list (R * R)) (v : R) : option R :=
  let i := Nat.max 1 (Nat.min (List.length nodes - 1) (List.length (filter (fun q => if Rlt_dec (fst q) v then true else false) nodes))) in
  let lo := nth (i - 1) nodes (0, 0) in
  let hi := nth i nodes (0, 0) in
  if Req_EM_T (fst hi) (fst lo) then None else
  Some ((snd hi - snd lo) / (fst hi - fst lo) * (v - fst lo) + snd lo).
Definition clip01 (x : R) : R := if Rlt_dec x 0 then 0 else if Rlt_dec 1 x then 1 else x.
(** acoustics.py:326-355 for a list of coefficients, the bank having these band centres. [None]: no
    coefficients, other number of frequencies, a frequency that is not positive (log2), or NaN. *)
Definition bank_call (centers : vec) (b : bands) : option vec :=
  match coeffs b with
  | [] => None
  | [a] => Some (repeat a (List.length centers))
  | _ =>
    let cf := match cfreqs b with None => firstn (List.length (coeffs b)) centers | Some cf => cf end in
    if negb (Nat.eqb (List.length cf) (List.length (coeffs b))) then None else
    if existsb (fun x => if Rle_dec x 0 then true else false) (cf ++ centers) then None else
    let nodes := sort_nodes (combine (map log2 cf) (coeffs b)) in
    mapM (fun c => let* y := interp_at nodes (log2 c) in Some (clip01 y)) centers
  end.
(** parameters.py:540-549 *)
Definition resample (centers : vec) (m : material) : option material :=
  let* a := bank_call centers (fst m) in
  let* s := bank_call centers (snd m) in
  Some ({| coeffs := a; cfreqs := Some centers |}, {| coeffs := s; cfreqs := Some centers |}).
(** room.py:1289-1291, 1441-1445, 2884-2888: [refs] are the material objects of the walls in turn (the
    same object may serve several walls), [st] the objects; they are changed in place. *)
Definition make_compatible (centers : vec) (st : list (bands * bands)) (refs : list nat) : option (list (bands * bands)) :=
  let* ms := mapM (nth_error st) refs in
  if all_flat ms then Some st else
  foldM (fun st i => let* m := nth_error st i in let* m' := resample centers m in store st i m') refs st.
