(** /repo/pyroomacoustics/directivities/measured.py: MeasuredDirectivityEnergyDistribution 93-133, MeasuredDirectivity
    136-305 (without plot), MeasuredDirectivityFile 371-587.

    Exact arithmetic.  Arguments: the nearest neighbour search of scipy.spatial.cKDTree ([nearest]), the energies of an
    impulse response in the octave bands over the relative bandwidths ([band_energy], 187-198), the areas of the cells
    (robust_spherical_voronoi_areas, see AreaModel) and the interpolation (see InterpModel).  Rotations and grids are those
    of DirectModel and SphereModel.  [None] is an exception or NaN. *)
From Coq Require Import Reals List ZArith Lia Lra Bool String.
From Verif Require Import Base Vec Sum SphereModel DirectModel.
Import ListNotations.
Local Open Scope R_scope.

Section measured.
Variable nearest : list vec -> vec -> nat.
Variable band_energy : vec -> vec.

Record measured := { m_grid : list vec; m_irs : list vec; m_areas : list R; m_rot : list (list R); m_pts : list vec }.
(** 216-245: GridSphere(cartesian_points=...) normalises *)
Definition set_orientation (m : measured) (rot : list (list R)) : option measured :=
  let* pts := mapM (fun g => let* p := rotate rot g in let* u := grid_sphere_point p in Some (fst u)) (m_grid m) in
  Some {| m_grid := m_grid m; m_irs := m_irs m; m_areas := m_areas m; m_rot := rot; m_pts := pts |}.
(** 152-167 *)
Definition make_measured (areas : list vec -> option (list R)) (rot : list (list R)) (grid : list vec) (irs : list vec) : option measured :=
  let* a := areas grid in
  set_orientation {| m_grid := grid; m_irs := irs; m_areas := a; m_rot := rot; m_pts := [] |} rot.
(** 247-265; an index beyond the responses raises *)
Definition md_response (m : measured) (d : vec) : option vec := nth_error (m_irs m) (nearest (m_pts m) d).
Definition md_response_cartesian (m : measured) (directions : list vec) : option (list vec) := mapM (md_response m) directions.
(** 267-289; numpy.radians(None) raises *)
Definition md_get_response (m : measured) (azimuth : list R) (colatitude : option (list R)) (degrees : bool) : option (list vec) :=
  match colatitude with
  | None => if degrees then None else md_response_cartesian m (map (fun a => spher2cart a None 1 false) azimuth)
  | Some col => md_response_cartesian m (map (fun ac => spher2cart (fst ac) (Some (snd ac)) 1 degrees) (combine azimuth col))
  end.
(** 196-214 *)
Definition bands (m : measured) : nat := List.length (band_energy (nth 0 (m_irs m) [])).
Definition energy (m : measured) (i b : nat) : R := nth b (band_energy (nth i (m_irs m) [])) 0.
Definition n_dirs (m : measured) : nat := List.length (m_irs m).
Definition energy_per_direction (m : measured) (i : nat) : R := bsum (bands m) (energy m i).
Definition total_energy (m : measured) : R := bsum (n_dirs m) (fun i => bsum (bands m) (fun b => energy m i b * nth i (m_areas m) 0)).
Definition coeff_random (m : measured) (i b : nat) : option R :=
  if Req_EM_T (total_energy m) 0 then None else
  let norm := energy_per_direction m i / total_energy m in
  if Req_EM_T norm 0 then None else Some (energy m i b / norm).
(** 110-130: the energies relative to the largest *)
Definition largest (m : measured) : R := fold_right Rmax 0 (map (energy_per_direction m) (seq 0 (n_dirs m))).
Definition relative_energy (m : measured) (i : nat) : option R := if Req_EM_T (largest m) 0 then None else Some (energy_per_direction m i / largest m).
Definition pattern_value (m : measured) (x : vec) : option R := relative_energy m (nearest (m_pts m) x).
Definition md_pdf (m : measured) (x : vec) : option R :=
  let* v := pattern_value m x in
  let* rel := mapM (relative_energy m) (seq 0 (n_dirs m)) in
  let z := bsum (n_dirs m) (fun i => nth i (m_areas m) 0 * nth i rel 0) in
  if Req_EM_T z 0 then None else Some (v / z).
(** 291-302: the energies of the rays; [drawn] are the rays of the sampler, if there is a generator *)
Definition ray_energy (m : measured) (random : bool) (ray : vec) (b : nat) : option R :=
  let i := nearest (m_pts m) ray in
  if random then let* c := coeff_random m i b in Some (c / (4 * PI)) else Some (energy m i b).

(** ** Files *)
Inductive meas_id := Idx (z : Z) | Lab (s : string).
Inductive kind := Mic | Source.
Variable areas : list vec -> option (list R).
Variable interp : list (R * R) -> list vec -> option (list vec * list vec).  (* to the points of the new grid; both results *)
Record mfile := { f_irs : nat -> nat -> vec; f_sources : list (R * R * R); f_mics : list vec; f_slab : option (list string); f_mlab : option (list string); f_new : option (list vec) }.
Definition cache := list (kind * nat * list vec).
Fixpoint index_of (s : string) (l : list string) : option nat := match l with [] => None | x :: l' => if String.eqb s x then Some 0%nat else option_map S (index_of s l') end.
(** 481-491 *)
Definition measurement_index (id : meas_id) (labels : option (list string)) : option Z :=
  match id with Idx z => Some z | Lab s => match labels with Some l => option_map Z.of_nat (index_of s l) | None => None end end.
(** 0 <= mid < n *)
Definition checked (z : Z) (n : nat) : option nat := if (0 <=? z)%Z && (z <? Z.of_nat n)%Z then Some (Z.to_nat z) else None.
Definition same (k : kind) (i : nat) (e : kind * nat * list vec) : bool := match k, fst (fst e) with Mic, Mic | Source, Source => Nat.eqb i (snd (fst e)) | _, _ => false end.
(** 463-479 *)
Definition interpolate (f : mfile) (c : cache) (k : kind) (mid : nat) (grid : list (R * R)) (irs : list vec) : option (list vec * list vec * cache) :=
  match f_new f with
  | None => Some (map (fun ac => spher2cart (fst ac) (Some (snd ac)) 1 false) grid, irs, c)
  | Some new_points =>
      match find (same k mid) c with
      | Some e => Some (new_points, snd e, c)
      | None => let* r := interp grid irs in Some (new_points, fst r, (k, mid, fst r) :: c)
      end
  end.
(** 500-506, 519-528 *)
Definition mic_position (f : mfile) (id : meas_id) : option vec :=
  let* z := measurement_index id (f_mlab f) in let* i := checked z (List.length (f_mics f)) in nth_error (f_mics f) i.
Definition source_position (f : mfile) (id : meas_id) : option vec :=
  let* z := measurement_index id (f_slab f) in let* i := checked z (List.length (f_sources f)) in
  let* s := nth_error (f_sources f) i in let '(az, co, r) := s in Some (spher2cart az (Some co) r false).
(** 530-555: the directivity, if there is no exception, and the cache afterwards *)
Definition mic_directivity (f : mfile) (c : cache) (id : meas_id) (rot : list (list R)) : option measured * cache :=
  match (let* z := measurement_index id (f_mlab f) in checked z (List.length (f_mics f))) with
  | None => (None, c)
  | Some mid =>
      let irs := map (fun s => f_irs f s mid) (seq 0 (List.length (f_sources f))) in
      match interpolate f c Mic mid (map fst (f_sources f)) irs with
      | None => (None, c)
      | Some (grid, irs, c) => (make_measured areas rot grid irs, c)
      end
  end.
(** 557-587 *)
Definition source_directivity (f : mfile) (c : cache) (id : meas_id) (rot : list (list R)) : option measured * cache :=
  match (let* z := measurement_index id (f_slab f) in checked z (List.length (f_sources f))) with
  | None => (None, c)
  | Some sid =>
      let irs := map (fun k => f_irs f sid k) (seq 0 (List.length (f_mics f))) in
      match interpolate f c Source sid (map (fun p => fst (cart2spher p)) (f_mics f)) irs with
      | None => (None, c)
      | Some (grid, irs, c) => (make_measured areas rot grid irs, c)
      end
  end.
End measured.
