(** /repo/pyroomacoustics/directivities/histogram.py: SphericalHistogram 35-118 (without plot and find_peak).
    /repo/pyroomacoustics/doa/grid.py: GridSphere._compute_neighbors 228-252, min_max_distance 264-292.

    Exact arithmetic.  Arguments: the nearest neighbour search of scipy.spatial.cKDTree ([nearest]), the areas of the cells
    and the triangles of scipy's convex hull.  [None] is an exception or NaN. *)
From Coq Require Import Reals List ZArith Lia Lra Bool.
From Verif Require Import Base Vec Sum SphereModel GridModel MedModel.
Import ListNotations.
Local Open Scope R_scope.

Section hist.
Variable nearest : list vec -> vec -> nat.
(** [h_cache]: [None] is an array of NaN *)
Record hist := { h_grid : list vec; h_areas : list R; h_bins : list nat; h_total : nat; h_dirty : bool; h_cache : list (option R) }.
(** 36-63: the argument dim is not used *)
Definition make_hist (grid : list vec) (areas : list R) (dim : nat) : hist :=
  {| h_grid := grid; h_areas := areas; h_bins := repeat 0%nat (length grid); h_total := 0; h_dirty := false; h_cache := repeat (Some 0) (length grid) |}.
(** numpy.unique(..., return_counts=True) *)
Definition unique_counts (l : list nat) : list (nat * nat) := map (fun i => (i, count_occ Nat.eq_dec l i)) (unique_nat l).
(** bins[indices] += counts *)
Definition add_counts (bins : list nat) (ic : list (nat * nat)) : option (list nat) :=
  foldM (fun b p => store b (fst p) (nth (fst p) b 0 + snd p)%nat) ic bins.
(** 105-118 *)
Definition push (h : hist) (points : list vec) : option hist :=
  let* bins := add_counts (h_bins h) (unique_counts (map (nearest (h_grid h)) points)) in
  Some {| h_grid := h_grid h; h_areas := h_areas h; h_bins := bins; h_total := h_total h + length points; h_dirty := true; h_cache := h_cache h |}.
(** 81-89: the array and the object afterwards *)
Definition histogram (h : hist) : list (option R) * hist :=
  if h_dirty h then
    let z := bsum (length (h_bins h)) (fun i => nth i (h_areas h) 0 * INR (nth i (h_bins h) 0%nat)) in
    let c := map (fun b => if Req_EM_T z 0 then None else Some (INR b / z)) (h_bins h) in
    (c, {| h_grid := h_grid h; h_areas := h_areas h; h_bins := h_bins h; h_total := h_total h; h_dirty := false; h_cache := c |})
  else (h_cache h, h).
End hist.

(** ** Neighbours *)
Definition set_add (u : nat) (l : list nat) : list nat := if existsb (Nat.eqb u) l then l else u :: l.
Definition add_edge (adj : list (list nat)) (v u : nat) : option (list (list nat)) := store adj v (set_add u (nth v adj [])).
Definition add_triangle (adj : list (list nat)) (t : nat * nat * nat) : option (list (list nat)) :=
  let '(a, b, c) := t in
  foldM (fun adj e => add_edge adj (fst e) (snd e)) [(a, b); (a, c); (b, a); (b, c); (c, a); (c, b)] adj.
Definition compute_neighbors (n_points : nat) (simplices : list (nat * nat * nat)) : option (list (list nat)) := foldM add_triangle simplices (repeat [] n_points).
(** 264-292; [None] for the infinite distance at the start *)
Definition min_of (m : option R) (d : R) : option R := match m with None => Some d | Some m => if Rlt_dec d m then Some d else Some m end.
Definition max_of (m d : R) : R := if Rlt_dec m d then d else m.
Definition edge_distances (azimuth colatitude : list R) (neighbors : list (list nat)) : list R :=
  flat_map (fun u => map (fun v => great_circ_dist 1 (nth u colatitude 0) (nth u azimuth 0) (nth v colatitude 0) (nth v azimuth 0)) (nth u neighbors [])) (seq 0 (length azimuth)).
Definition min_max_distance (azimuth colatitude : list R) (neighbors : list (list nat)) : option (option R * R * R * R) :=
  let dist := edge_distances azimuth colatitude neighbors in
  if Nat.eqb (length dist) 0 then None else
  let* med := median dist in
  Some (fold_left min_of dist None, fold_left max_of dist 0, Rsum dist / INR (length dist), med).
