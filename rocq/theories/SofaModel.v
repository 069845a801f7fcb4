(** Reading of SOFA files.
    /repo/pyroomacoustics/directivities/sofa.py: open_sofa_file 47-142, _parse_locations 145-206,
    _read_simple_free_field_hrir 209-248, _read_general_fir 251-269, _read_dirpat 272-333.
    /repo/pyroomacoustics/datasets/sofa.py: is_dirpat 96-99.

    Exact real arithmetic.  A file is the contents the library python-sofa gives: impulse responses of every source at
    every microphone, a sampling rate, and positions, units and type of the sources and of the microphones.  Positions
    are triples (the dimension C of SOFA is always three; a last dimension of one, 170-172, is dropped already).
    Paths are resolved already, the data base of labels and the resampling are arguments.  [None] is an exception. *)
From Coq Require Import List ZArith Lia Reals Lra Bool String Ascii.
From Verif Require Import Base Vec GeometryModel SphereModel.
Import ListNotations.
Local Open Scope string_scope.
Local Open Scope R_scope.

Definition point : Type := R * R * R.
Record sofa_pos := { sp_values : list point; sp_units : string; sp_type : string }.

(** str.split(","), str.strip() of blanks *)
Fixpoint split_comma (acc s : string) : list string :=
  match s with
  | EmptyString => [acc]
  | String c s' => if Ascii.eqb c "," then acc :: split_comma "" s' else split_comma (acc ++ String c "") s'
  end.
Fixpoint lstrip (s : string) : string := match s with String " " s' => lstrip s' | _ => s end.
Fixpoint rstrip (s : string) : string :=
  match s with
  | EmptyString => ""
  | String c s' => match rstrip s' with EmptyString => if Ascii.eqb c " " then "" else String c "" | t => String c t end
  end.
Definition has_comma (s : string) : bool := negb (Nat.eqb (List.length (split_comma "" s)) 1).
(** 175-180 *)
Definition pos_units (p : sofa_pos) : list string :=
  if has_comma (sp_units p) then map (fun u => rstrip (lstrip u)) (split_comma "" (sp_units p)) else repeat (sp_units p) 3.
(** 193-194 *)
Definition angle (units : list string) (a : R) : R := if String.eqb (nth 0 units "") "degree" then radians a else a.
(** 198-200, 307-309, 321-323: angles that may be negative are taken for elevations *)
Definition to_colatitude (co : list R) : list R := if existsb (fun c => Rltb c 0) co then map (fun c => PI / 2 - c) co else co.
Definition to_cart (p : point) : vec := spher2cart (fst (fst p)) (Some (snd (fst p))) (snd p) false.
Inductive target := TSpherical | TCartesian | TOther.
(** the columns of the array; (azimuth, colatitude, distance) or (x, y, z) *)
Definition parse_locations (p : sofa_pos) (t : target) : option (list point) :=
  match t with
  | TOther => None
  | _ =>
      let units := pos_units p in
      if String.eqb (sp_type p) "cartesian" then
        if existsb (fun u => negb (String.eqb u "metre")) units then None
        else match t with
             | TSpherical => Some (map (fun q : point => cart2spher [fst (fst q); snd (fst q); snd q]) (sp_values p))
             | _ => Some (sp_values p)
             end
      else if String.eqb (sp_type p) "spherical" then
        let azimuth := map (fun q : point => angle units (fst (fst q))) (sp_values p) in
        let colatitude := to_colatitude (map (fun q : point => angle units (snd (fst q))) (sp_values p)) in
        let distance := map (fun q : point => snd q) (sp_values p) in
        let s := combine (combine azimuth colatitude) distance in
        match t with
        | TCartesian => Some (map (fun q : point => let v := to_cart q in (nth 0 v 0, nth 1 v 0, nth 2 v 0)) s)
        | _ => Some s
        end
      else None
  end.

Record sofa_file := { sf_stem : string; sf_convention : string; sf_ir : list (list vec); sf_rate : Z; sf_source : sofa_pos; sf_receiver : sofa_pos }.
Record opened := { op_ir : list (list vec); op_fs : Z; op_src : list point; op_mic : list point; op_slab : option (list string); op_mlab : option (list string) }.
Inductive device := Sources | Microphones | Unknown.
Definition dirpat_files : list string := ["Soundfield_ST450_CUBE"; "AKG_c480_c414_CUBE"; "Oktava_MK4012_CUBE"; "LSPs_HATS_GuitarCabinets_Akustikmessplatz"].
Definition is_dirpat (name : string) : bool := existsb (String.eqb name) dirpat_files.

Section Open.
(** utilities.resample of one response from a rate to another *)
Variable resample : Z -> Z -> vec -> vec.
(** the data base: type and labels of the files it contains *)
Variable db : string -> option (device * option (list string)).

(** 232-239, 255-260, 281-287 *)
Definition at_rate (f : sofa_file) (fs : option Z) : list (list vec) * Z :=
  match fs with None => (sf_ir f, sf_rate f) | Some r => (map (map (resample (sf_rate f) r)) (sf_ir f), r) end.
(** np.reshape(pos, [k, -1, 3]), swapaxes(0, 1), reshape([n, -1]) *)
Definition transpose_rows (k : nat) (pos : list point) : option (list point) :=
  if Nat.eqb (List.length pos) 0 then None else
  if negb (Nat.eqb (List.length pos mod k) 0) then None else
  let b := (List.length pos / k)%nat in
  Some (flat_map (fun j => map (fun i => nth (i * b + j) pos (0, 0, 0)) (seq 0 k)) (seq 0 b)).
Definition fix_colatitude (pos : list point) : list point :=
  combine (combine (map (fun q : point => fst (fst q)) pos) (to_colatitude (map (fun q : point => snd (fst q)) pos))) (map (fun q : point => snd q) pos).
(** msr.shape[1]: the array is (sources, microphones, taps) *)
Definition n_mics (ir : list (list vec)) : nat := List.length (nth 0 ir []).
Definition read_dirpat (f : sofa_file) (fs : option Z) : option (list (list vec) * Z * list point * list point) :=
  match db (sf_stem f) with
  | None => None
  | Some _ =>
      let msr := at_rate f fs in
      if String.eqb (sf_stem f) "LSPs_HATS_GuitarCabinets_Akustikmessplatz" then
        let* pos := transpose_rows 36 (sp_values (sf_receiver f)) in
        Some (fst msr, snd msr, repeat (0, 0, 0) (List.length (fst msr)), map (fun q => let v := to_cart q in (nth 0 v 0, nth 1 v 0, nth 2 v 0)) (fix_colatitude pos))
      else
        let* pos := transpose_rows 30 (sp_values (sf_source f)) in
        Some (fst msr, snd msr, fix_colatitude pos, repeat (0, 0, 0) (n_mics (fst msr)))
  end.
(** 225-248 and 251-269 are the same *)
Definition read_fir (f : sofa_file) (fs : option Z) : option (list (list vec) * Z * list point * list point) :=
  let msr := at_rate f fs in
  let* s := parse_locations (sf_source f) TSpherical in
  let* r := parse_locations (sf_receiver f) TCartesian in Some (fst msr, snd msr, s, r).
(** 94-142; fs defaults to 16000 *)
Definition open_sofa_file (f : sofa_file) (fs : option Z) : option opened :=
  let* r := (if is_dirpat (sf_stem f) then read_dirpat f fs
             else if String.eqb (sf_convention f) "SimpleFreeFieldHRIR" || String.eqb (sf_convention f) "GeneralFIR" then read_fir f fs else None) in
  let ir := fst (fst (fst r)) in
  let out := fun sl ml => Some {| op_ir := ir; op_fs := snd (fst (fst r)); op_src := snd (fst r); op_mic := snd r; op_slab := sl; op_mlab := ml |} in
  match db (sf_stem f) with
  | Some (Sources, Some l) => if Nat.eqb (List.length l) (List.length ir) then out (Some l) None else None
  | Some (Microphones, Some l) => if Nat.eqb (List.length l) (n_mics ir) then out None (Some l) else None
  | _ => out None None
  end.
End Open.
