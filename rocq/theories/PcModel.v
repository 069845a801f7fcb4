(** /repo/pyroomacoustics/experimental/point_cloud.py: PointCloud.  The array X is the list of its
    columns, the points.  Real numbers instead of floats; [None]: an exception, or numbers that are
    not finite.  The diameter is stored and never used. *)
From Coq Require Import List ZArith Lia Reals Bool String.
From Coq Require DecimalString.
From Verif Require Import Base Vec Sum SourceModel SphereModel.
Import ListNotations.
Local Open Scope R_scope.

Record cloud := { c_dim : nat; c_pts : list vec; c_labels : list string }.
Definition str_of (i : nat) : string := DecimalString.NilEmpty.string_of_uint (Nat.to_uint i).
(** point_cloud.py:34-60 without an EDM; [X]: number of rows and the columns *)
Definition pc_new (m dim : nat) (X : option (nat * list vec)) (labels : option (list string)) : option cloud :=
  let '(d, pts) := match X with Some x => x | None => (dim, repeat (repeat 0 dim) m) end in
  match labels with
  | Some l => if Nat.eqb (List.length l) (List.length pts) then Some {| c_dim := d; c_pts := pts; c_labels := l |} else None
  | None => Some {| c_dim := d; c_pts := pts; c_labels := map str_of (seq 0 (List.length pts)) |}
  end.
(** A reference to a point. *)
Inductive key := Label (s : string) | At (i : Z).
Fixpoint index_of (s : string) (l : list string) : option nat :=
  match l with [] => None | x :: l' => if String.eqb s x then Some 0%nat else option_map S (index_of s l') end.
(** point_cloud.py:87-96 *)
Definition key2ind (c : cloud) (k : key) : option Z :=
  match k with Label s => option_map Z.of_nat (index_of s (c_labels c)) | At i => Some i end.
(** self.X[:, i] *)
Definition column (c : cloud) (i : Z) : option vec := let* k := wrap (List.length (c_pts c)) i in nth_error (c_pts c) k.
Definition with_pts (c : cloud) (p : list vec) : cloud := {| c_dim := c_dim c; c_pts := p; c_labels := c_labels c |}.
(** point_cloud.py:62-77 for a label, an integer, or a list of them *)
Definition pc_get (c : cloud) (k : key) : option vec := let* i := key2ind c k in column c i.
Definition pc_get_list (c : cloud) (l : list key) : option (list vec) := mapM (pc_get c) l.

(** point_cloud.py:182-192 *)
Definition pc_edm (c : cloud) : list (list R) :=
  map (fun a => map (fun b => dot b b - 2 * dot a b + dot a a) (c_pts c)) (c_pts c).

(** Rotations of the first two, and of the last two, coordinates. *)
Definition rotate_xy (co si : R) (v : vec) : vec := match v with x :: y :: r => (co * x + si * y) :: (- si * x + co * y) :: r | _ => v end.
Definition rotate_yz (co si : R) (v : vec) : vec := match v with [x; y; z] => [x; co * y + si * z; - si * y + co * z] | _ => v end.
Definition flip (k : nat) (v : vec) : vec := map (fun i => if Nat.eqb i k then nth i v 0 * -1 else nth i v 0) (seq 0 (List.length v)).
(** point_cloud.py:194-254 *)
Definition pc_normalize (c : cloud) (refs : option (list key)) : option cloud :=
  let refs := match refs with Some r => r | None => map At [0; 1; 2; 3]%Z end in
  let* refs := mapM (key2ind c) refs in
  if (Nat.eqb (c_dim c) 2 && (List.length refs <? 3)%nat) || (Nat.eqb (c_dim c) 3 && (List.length refs <? 4)%nat) then None else
  let* r0 := nth_error refs 0 in
  let* x0 := column c r0 in
  let Y := with_pts c (map (fun p => vminus p x0) (c_pts c)) in
  let* r1 := nth_error refs 1 in
  let* p1 := column Y r1 in
  let theta := atan2 (nth 1 p1 0) (nth 0 p1 0) in
  let Y := with_pts c (map (rotate_xy (cos theta) (sin theta)) (c_pts Y)) in
  let* r2 := nth_error refs 2 in
  let* p2 := column Y r2 in
  if Nat.eqb (c_dim c) 2 then
    Some (if Rlt_dec (nth 1 p2 0) 0 then with_pts c (map (flip 1) (c_pts Y)) else Y)
  else if Nat.eqb (c_dim c) 3 then
    let theta := atan2 (nth 2 p2 0) (nth 1 p2 0) in
    let Y := with_pts c (map (rotate_yz (cos theta) (sin theta)) (c_pts Y)) in
    let* r3 := nth_error refs 3 in
    let* p3 := column Y r3 in
    Some (if Rlt_dec (nth 2 p3 0) 0 then with_pts c (map (flip 2) (c_pts Y)) else Y)
  else None.
(** point_cloud.py:256-260 *)
Definition pc_center (c : cloud) (k : key) : option cloud :=
  let* i := key2ind c k in let* x := column c i in Some (with_pts c (map (fun p => vminus p x) (c_pts c))).
(** point_cloud.py:262-292.  The rows are swapped through views: the first assignment writes over
    what the second one reads. *)
Inductive axis := Name (s : string) | Num (a : Z).
Definition swap_rows (a b : nat) (v : vec) : vec :=
  let v := map (fun i => if Nat.eqb i a then nth b v 0 else nth i v 0) (seq 0 (List.length v)) in
  map (fun i => if Nat.eqb i b then nth a v 0 else nth i v 0) (seq 0 (List.length v)).
Definition pc_align (c : cloud) (k : key) (a : axis) : option cloud :=
  let* i := key2ind c k in
  let* a := match k, a with
    | Label _, Name s => option_map (fun n => Num (Z.of_nat n)) (index_of s ["x"; "y"; "z"]%string)
    | Label _, Num _ => None
    | At _, a => Some a
    end in
  if (c_dim c <? 2)%nat then None else
  let* sw := if Nat.eqb (c_dim c) 3 then (match a with Num z => let* r := wrap 3 z in Some (swap_rows r 2) | Name _ => None end) else Some (fun v => v) in
  let Y := with_pts c (map sw (c_pts c)) in
  let* p := column Y i in
  let theta := atan2 (nth 1 p 0) (nth 0 p 0) in
  Some (with_pts c (map (fun v => sw (rotate_xy (cos theta) (sin theta) v)) (c_pts Y))).
(** point_cloud.py:294-315.  [svd] is the left matrix of scipy's svd, as the list of its columns. *)
Definition vmean (d : nat) (l : list vec) : vec := map (fun j => Rsum (map (fun v => nth j v 0) l) / INR (List.length l)) (seq 0 d).
Definition pc_flatten (svd : list vec -> list vec) (c : cloud) (ind : list key) : option cloud :=
  let* ind := mapM (key2ind c) ind in
  let* group := mapM (column c) ind in
  if (List.length group =? 0)%nat then None else
  let m := vmean (c_dim c) group in
  let U := svd (map (fun p => vminus p m) group) in
  let new p := map (fun u => dot u (vminus p m)) U in
  if Nat.eqb (List.length U) (c_dim c) then Some (with_pts c (map (fun p => vadd (new p) m) (c_pts c)))
  else if Nat.eqb (List.length U) 1 then Some (with_pts c (map (fun p => map (fun x => nth 0 (new p) 0 + x) m) (c_pts c)))
  else None.
(** point_cloud.py:317-322, for vectors of the right length *)
Definition pc_correct (c : cloud) (corr : list (key * vec)) : option cloud :=
  foldM (fun c kv => let* i := key2ind c (fst kv) in let* k := wrap (List.length (c_pts c)) i in
    if Nat.eqb (List.length (snd kv)) (c_dim c) then Some (with_pts c (map (fun j => let p := nth j (c_pts c) [] in if Nat.eqb j k then vadd p (snd kv) else p) (seq 0 (List.length (c_pts c))))) else None) corr c.
(** point_cloud.py:324-336 *)
Definition pc_doa (c : cloud) (receiver source : key) : option (R * R) :=
  let* s := key2ind c source in let* r := key2ind c receiver in
  let* ps := column c s in let* pr := column c r in
  let v := vminus ps pr in
  if (c_dim c <? 3)%nat then None else
  Some (atan2 (nth 1 v 0) (nth 0 v 0), atan2 (nth 2 v 0) (sqrt (nth 0 v 0 * nth 0 v 0 + nth 1 v 0 * nth 1 v 0))).
