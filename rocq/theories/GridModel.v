(** Peak search on grids.
    /repo/pyroomacoustics/doa/detect_peaks.py: detect_peaks 104-166 (without NaNs and plotting);
    /repo/pyroomacoustics/doa/grid.py: GridCircle.find_peaks 104-119, GridSphere.find_peaks 296-323;
    /repo/pyroomacoustics/doa/doa.py: DOA.locate_sources 291-378, _check_num_src 570-583.

    np.argsort (unstable quicksort) is an argument, any sorting permutation is allowed. *)
From Coq Require Import List ZArith Lia Reals Lra Bool Permutation.
From Verif Require Import Base GeometryModel.
Import ListNotations.
Local Open Scope R_scope.

(** What the code may assume of np.argsort. *)
Definition is_argsort (argsort : list R -> list nat) : Prop := forall l, Permutation (argsort l) (seq 0 (length l)) /\
  forall i j, (i < j < length l)%nat -> nth (nth i (argsort l) 0%nat) l 0 <= nth (nth j (argsort l) 0%nat) l 0.
(** np.sort and np.unique on integers *)
Fixpoint insert_nat (a : nat) (l : list nat) : list nat :=
  match l with [] => [a] | b :: l' => if (a <=? b)%nat then a :: l else b :: insert_nat a l' end.
Definition sort_nat (l : list nat) : list nat := fold_right insert_nat [] l.
Definition unique_nat (l : list nat) : list nat := nodup Nat.eq_dec (sort_nat l).

Inductive edge_kind := edge_none | edge_rising | edge_falling | edge_both.
(** np.hstack((dx, 0)) and np.hstack((0, dx)) at index i, dx = x[1:] - x[:-1] *)
Definition step_after (x : list R) (i : nat) : R := if (S i <? length x)%nat then nth (S i) x 0 - nth i x 0 else 0.
Definition step_before (x : list R) (i : nat) : R := if (0 <? i)%nat then nth i x 0 - nth (i - 1) x 0 else 0.
Definition at_edge (x : list R) (e : edge_kind) (i : nat) : bool :=
  let rising := Rleb (step_after x i) 0 && Rltb 0 (step_before x i) in
  let falling := Rltb (step_after x i) 0 && Rleb 0 (step_before x i) in
  match e with
  | edge_none => Rltb (step_after x i) 0 && Rltb 0 (step_before x i)
  | edge_rising => rising
  | edge_falling => falling
  | edge_both => rising || falling
  end.
Definition drop_first_if (n : nat) (l : list nat) : list nat := match l with a :: l' => if (a =? n)%nat then l' else l | [] => [] end.
Definition drop_last_if (n : nat) (l : list nat) : list nat := match l with [] => [] | _ => if (last l 0 =? n)%nat then removelast l else l end.
(** 148-158: [ind] sorted by height, [idel] marks the deleted ones *)
Definition near (mpd : Z) (a b : nat) : bool := (Z.of_nat b - mpd <=? Z.of_nat a)%Z && (Z.of_nat a <=? Z.of_nat b + mpd)%Z.
Definition suppress_one (x : list R) (mpd : Z) (kpsh : bool) (ind : list nat) (idel : list bool) (i : nat) : list bool :=
  if nth i idel false then idel else
  map (fun j => if (j =? i)%nat then false else
    nth j idel false || (near mpd (nth j ind 0%nat) (nth i ind 0%nat) && (if kpsh then Rltb (nth (nth j ind 0%nat) x 0) (nth (nth i ind 0%nat) x 0) else true)))
    (seq 0 (length ind)).
Definition suppress (x : list R) (mpd : Z) (kpsh : bool) (ind : list nat) : list bool :=
  fold_left (suppress_one x mpd kpsh ind) (seq 0 (length ind)) (repeat false (length ind)).
Definition detect_peaks (argsort : list R -> list nat) (x : list R) (mph : option R) (mpd : Z) (threshold : R) (edge : edge_kind) (kpsh valley : bool) : list nat :=
  if (length x <? 3)%nat then [] else
  let x := if valley then map Ropp x else x in
  let ind := filter (at_edge x edge) (seq 0 (length x)) in
  let ind := drop_first_if 0 ind in
  let ind := drop_last_if (length x - 1) ind in
  let ind := match mph with None => ind | Some h => filter (fun i => Rleb h (nth i x 0)) ind end in
  let ind := if Rltb 0 threshold then
      filter (fun i => negb (Rltb (Rmin (nth i x 0 - nth (i - 1) x 0) (nth i x 0 - nth (i + 1) x 0)) threshold)) ind
    else ind in
  if (1 <? mpd)%Z then
    let ind := rev (map (fun j => nth j ind 0%nat) (argsort (map (fun i => nth i x 0) ind))) in
    let idel := suppress x mpd kpsh ind in
    sort_nat (map (fun j => nth j ind 0%nat) (filter (fun j => negb (nth j idel false)) (seq 0 (length ind))))
  else ind.

(** a[-k:]; for k = 0 this is the whole of a *)
Definition last_k {A} (k : nat) (l : list A) : list A := if (k =? 0)%nat then l else skipn (length l - k) l.
Definition k_largest (argsort : list R -> list nat) (values : list R) (candidates : list nat) (k : nat) : list nat :=
  map (fun j => nth j candidates 0%nat) (last_k k (argsort (map (fun i => nth i values 0) candidates))).
Definition circle_find_peaks (argsort : list R -> list nat) (values : list R) (k : nat) : list nat :=
  let val_ext := values ++ firstn 10 values in
  let indexes := map (fun i => (i mod length values)%nat) (detect_peaks argsort val_ext None 1 0 edge_rising false false) in
  k_largest argsort values (unique_nat indexes) k.
(** [neighbors v]: adjacency lists from the convex hull *)
Definition sphere_find_peaks (argsort : list R -> list nat) (neighbors : nat -> list nat) (values : list R) (k : nat) : list nat :=
  let candidates := filter (fun v => negb (existsb (fun u => Rltb (nth v values 0) (nth u values 0)) (neighbors v))) (seq 0 (length values)) in
  k_largest argsort values candidates k.

(** DOA.num_src: set by the constructor, optionally by the argument of locate_sources, and overwritten with the
    number of peaks found. *)
Definition check_num_src (n : Z) : nat := if (n <? 1)%Z then 1%nat else Z.to_nat n.
Definition locate_sources (find_peaks : nat -> list nat) (num_src : nat) (arg : option Z) : nat * list nat :=
  let num_src := match arg with Some n => if (n =? Z.of_nat num_src)%Z then num_src else check_num_src n | None => num_src end in
  let src_idx := find_peaks num_src in
  (length src_idx, src_idx).
