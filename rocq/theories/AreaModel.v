(** /repo/pyroomacoustics/directivities/integration.py: robust_spherical_voronoi_areas 40-113.

    Exact arithmetic.  scipy.spatial.SphericalVoronoi (which raises for points that span less than three
    dimensions), numpy.linalg.svd and numpy.argsort are arguments; [None] is an exception or NaN. *)
From Coq Require Import Reals List ZArith Lia Lra Bool.
From Verif Require Import Base Vec SphereModel GridModel.
Import ListNotations.
Local Open Scope R_scope.

(** numpy.clip(x, -1, 1) *)
Definition clip1 (x : R) : R := Rmin (Rmax x (-1)) 1.
(** data / numpy.linalg.norm(data) *)
Definition normalised (p : vec) : option vec := if Req_EM_T (vnorm p) 0 then None else Some (map (fun x => x / vnorm p) p).
(** 56-63 *)
Definition three_areas (data : list vec) : option (list R) :=
  let* d := mapM normalised data in Some (map (fun p => Rsum (map (fun q => Rabs (acos (clip1 (dot p q)))) d)) d).
(** 84-113: [pts] are the coordinates in the plane of the first two right singular vectors *)
Definition pdot (p q : R * R) : R := fst p * fst q + snd p * snd q.
Definition cyc_pred (n k : nat) : nat := match k with O => (n - 1)%nat | S j => j end.
Definition cyc_succ (n k : nat) : nat := if Nat.eqb (S k) n then 0%nat else S k.
(** reverse[i]: the place of [i] in the permutation *)
Fixpoint place (i : nat) (l : list nat) : nat := match l with [] => 0%nat | j :: l' => if Nat.eqb i j then 0%nat else S (place i l') end.
Definition circle_areas (argsort : list R -> list nat) (pts : list (R * R)) : option (list R) :=
  let n := length pts in
  let o := argsort (map (fun p => atan2 (snd p) (fst p)) pts) in
  let sorted := fun k => nth (nth k o 0%nat) pts (0, 0) in
  let delta := fun k => acos (clip1 (pdot (sorted k) (sorted (cyc_pred n k)))) in
  if existsb (fun k => if Rlt_dec (delta k) (/ 1000000) then true else false) (seq 0 n) then None else
  let areas := fun k => / 2 * (delta k + delta (cyc_succ n k)) in
  Some (map (fun i => 2 * areas (place i o)) (seq 0 n)).
(** 40-113 *)
Definition robust_areas (voronoi : list vec -> option (list R)) (svd : list vec -> R * list (R * R)) (argsort : list R -> list nat) (data : list vec) : option (list R) :=
  if negb (forallb (fun p => Nat.eqb (length p) 3) data) then None else
  match data with
  | [] => None
  | [_] => Some [4 * PI]
  | [_; _] => Some [2 * PI; 2 * PI]
  | [_; _; _] => three_areas data
  | _ =>
      match voronoi data with
      | Some a => Some a
      | None =>
          let* d := mapM normalised data in
          let '(s1, pts) := svd d in
          if Rlt_dec s1 (/ 1000000) then None else circle_areas argsort pts
      end
  end.
