(** /repo/pyroomacoustics/soundsource.py: SoundSource (15-247), build_rir_matrix (250-335).

    The columns of the arrays are lists: entry [k] of each list belongs to image [k]. Coordinates are
    exact real numbers (the code stores images in single precision). [None] is a raised exception.
    Slices have no step. *)
From Coq Require Import List ZArith Lia Reals Bool.
From Verif Require Import Base Vec SimulateModel RirModel UtilModel.
Import ListNotations.
Local Open Scope R_scope.

Inductive order_kind := Order | Nearest | Strongest | Unknown.

Record sound_source := {
  position : vec;
  images : list vec;        (* one position per image *)
  damping : list vec;       (* one coefficient per band, per image *)
  generators : list Z; walls : list Z; orders : list Z;
  index_I : list nat; ordering : order_kind;
  signal : option vec; delay : R;
  max_order : Z;
  directivity : option nat  (* the identity of the Directivity object *)
}.

(** np.max; [None] for an empty array *)
Definition zmax (l : list Z) : option Z :=
  match l with [] => None | x :: r => Some (fold_left Z.max r x) end.

(** soundsource.py:35-104. An argument that is None, or of another length than the images, raises
    (line 85: np.array(None, dtype=np.int32) raises), except the damping, which is one by default. *)
Definition given (n : nat) (a : option (list Z)) : option (list Z) :=
  match a with Some l => if Nat.eqb (length l) n then Some l else None | None => None end.
Definition make_source (pos : vec) (imgs : option (list vec)) (damp : option (list vec)) (gens wls ords : option (list Z))
    (sig : option vec) (dly : R) (dir : option nat) : option sound_source :=
  if negb (Nat.eqb (length pos) 2 || Nat.eqb (length pos) 3) then None else
  match imgs with
  | None => Some {| position := pos; images := [pos]; damping := [[1]]; generators := [-1]%Z; walls := [-1]%Z; orders := [0]%Z;
                    index_I := [0%nat]; ordering := Order; signal := sig; delay := dly; max_order := 0; directivity := dir |}
  | Some im =>
      let n := length im in
      let d := match damp with Some d => d | None => repeat [1] n end in
      if negb (Nat.eqb (length d) n) then None else
      let* g := given n gens in
      let* w := given n wls in
      let* o := given n ords in
      let* m := zmax o in
      Some {| position := pos; images := im; damping := d; generators := g; walls := w; orders := o;
              index_I := seq 0 n; ordering := Order; signal := sig; delay := dly; max_order := m; directivity := dir |}
  end.

(** room.py:2127-2147: what [Room.image_source_model] stores *)
Definition fill (s : sound_source) (imgs damp : list vec) (wls ords : list Z) : sound_source :=
  {| position := position s; images := imgs; damping := damp; generators := map (fun _ => (-1)%Z) wls; walls := wls; orders := ords;
     index_I := index_I s; ordering := ordering s; signal := signal s; delay := delay s; max_order := max_order s;
     directivity := directivity s |}.

(** soundsource.py:124-125 *)
Definition distances (s : sound_source) (p : vec) : option vec :=
  if forallb (fun im => Nat.eqb (length im) (length p)) (images s) then Some (map (fun im => vdist im p) (images s)) else None.

Definition with_ordering (s : sound_source) (k : order_kind) (i : list nat) : sound_source :=
  {| position := position s; images := images s; damping := damping s; generators := generators s; walls := walls s; orders := orders s;
     index_I := i; ordering := k; signal := signal s; delay := delay s; max_order := max_order s; directivity := directivity s |}.

(** soundsource.py:127-157: the object after the call, and whether the call raised.
    Line 148: np.linalg.norm(matrix, 0) raises. *)
Definition set_ordering (argsort : list R -> list nat) (s : sound_source) (k : order_kind) (p : option vec) : sound_source * bool :=
  let s1 := with_ordering s k (index_I s) in
  match k with
  | Nearest =>
      match p with
      | None => (s1, true)
      | Some p => match distances s p with
                  | None => (s1, true)
                  | Some d => (with_ordering s k (argsort d), false)
                  end
      end
  | Strongest => (s1, true)
  | Order => (s1, false)
  | Unknown => (s1, true)
  end.

(** What is between the brackets: a slice [a:b], an integer, or a list of integers. *)
Inductive index := Slice (a b : option Z) | Int (i : Z) | Items (l : list Z).

(** [l[a:b]] *)
Definition slice {A} (a b : option Z) (l : list A) : list A :=
  let n := length l in
  let lo := match a with None => 0%nat | Some z => slice_bound n z end in
  let hi := match b with None => n | Some z => slice_bound n z end in
  firstn (hi - lo) (skipn lo l).
(** [l[list]]: negative indices count from the end *)
Definition wrap (n : nat) (i : Z) : option nat :=
  let j := if (i <? 0)%Z then (Z.of_nat n + i)%Z else i in
  if (0 <=? j)%Z && (j <? Z.of_nat n)%Z then Some (Z.to_nat j) else None.
Definition take_at {A} (l : list A) (idx : list nat) : option (list A) := mapM (nth_error l) idx.
(** [l[mask]] *)
Definition take_mask {A} (l : list A) (mask : list bool) : option (list A) :=
  if Nat.eqb (length l) (length mask) then Some (map fst (filter snd (combine l mask))) else None.

(** the constructor as called by [__getitem__]: without a directivity *)
Definition subset (s : sound_source) (sel : forall A : Type, list A -> option (list A)) : option sound_source :=
  let* im := sel vec (images s) in
  let* d := sel vec (damping s) in
  let* o := sel Z (orders s) in
  let* g := sel Z (generators s) in
  let* w := sel Z (walls s) in
  make_source (position s) (Some im) (Some d) (Some g) (Some w) (Some o) (signal s) (delay s) None.

(** soundsource.py:159-200 *)
Definition getitem (s : sound_source) (i : index) : option sound_source :=
  match i with
  | Int _ => None
  | Slice a b =>
      match ordering s with
      | Order =>
          let p_orders := slice a b (map Z.of_nat (seq 0 (Z.to_nat (max_order s + 1)))) in
          let mask := map (fun o => existsb (Z.eqb o) p_orders) (orders s) in
          subset s (fun A l => take_mask l mask)
      | _ => subset s (fun A l => take_at l (slice a b (index_I s)))
      end
  | Items l => subset s (fun A c => let* idx := mapM (wrap (length c)) l in take_at c idx)
  end.

(** soundsource.py:202-230. A reference point is a column (d, 1) or flat (d,); a flat one is broadcast
    along the images. *)
Inductive ref_shape := Column (p : vec) | Flat (p : vec).
Definition sq_distances (img : list vec) (r : ref_shape) : option vec :=
  match r with
  | Column p => if forallb (fun im => Nat.eqb (length im) (length p)) img then Some (map (fun im => vsq (vminus im p)) img) else None
  | Flat p =>
      match img with
      | [im] => Some (map (fun v => Rsum (map (fun x => (x - v) ^ 2) im)) p)
      | _ => if Nat.eqb (length p) (length img)
             then Some (map2 (fun im v => Rsum (map (fun x => (x - v) ^ 2) im)) img p) else None
      end
  end.
Definition get_images (argsort : list R -> list nat) (s : sound_source) (mo : option Z) (n_nearest : option nat) (r : option ref_shape)
    : option (list vec) :=
  let* m := match mo with Some m => Some m | None => zmax (orders s) end in
  let* img := take_mask (images s) (map (fun o => (o <=? m)%Z) (orders s)) in
  match n_nearest with
  | None => Some img
  | Some n => let* r := r in let* d := sq_distances img r in take_at img (firstn n (argsort d))
  end.

(** soundsource.py:232-236: [len(np.max(...))] of a scalar raises *)
Definition get_damping (s : sound_source) (mo : option Z) : option (list vec) :=
  let* m := mo in take_mask (damping s) (map (fun o => (o <=? m)%Z) (orders s)).

(** soundsource.py:238-247: an integer is never NaN; [None]: not finished after [fuel] turns, or an index
    out of range *)
Fixpoint wall_loop (fuel : nat) (s : sound_source) (p : Z) (w : list Z) : option (list Z) :=
  match fuel with
  | O => None
  | S n => let* k := wrap (length (walls s)) p in let* k' := wrap (length (generators s)) p in
           let* wl := nth_error (walls s) k in let* g := nth_error (generators s) k' in wall_loop n s g (w ++ [wl])
  end.
Definition wall_sequence (fuel : nat) (s : sound_source) (i : Z) : option (list Z) :=
  let* k := wrap (length (generators s)) i in let* p := nth_error (generators s) k in
  let* k' := wrap (length (walls s)) i in let* w := nth_error (walls s) k' in wall_loop fuel s p [w].

(** ** build_rir_matrix *)
(** utilities.py:580-589, summed over the images *)
Definition dirac_train (fs : R) (n : nat) (times gains : vec) : vec :=
  map (fun k => Rsum (map2 (fun t a => a * sinc (INR k - fs * t)) times gains)) (seq 0 n).
Definition vmin (l : vec) : option R := match l with [] => None | x :: r => Some (fold_left Rmin r x) end.
Definition vmax (l : vec) : option R := match l with [] => None | x :: r => Some (fold_left Rmax r x) end.

(** soundsource.py:295-317: gains of the images of a source at a microphone *)
Definition rir_gains (unit_damping : bool) (s : sound_source) (dist : vec) : vec :=
  if unit_damping then map (fun d => 1 / (4 * PI * d)) dist
  else map2 (fun a d => nth 0 a 0 / (4 * PI * d)) (damping s) dist.
Record rir_bounds := { b_min : option R; b_max : R; b_gain : R }.
Definition rir_bounds_step (mics : list vec) (ud : bool) (b : rir_bounds) (s : sound_source) : option rir_bounds :=
  let* dist := mapM (fun m => distances s m) mics in
  let* dmin := vmin (concat dist) in
  let* dmax := vmax (concat dist) in
  let* g := vmax (concat (map (rir_gains ud s) dist)) in
  Some {| b_min := Some (match b_min b with None => dmin | Some m => Rmin dmin m end); b_max := Rmax dmax (b_max b); b_gain := Rmax g (b_gain b) |}.
(** [None]: several bands, no source or microphone, a microphone at an image (division by zero), or
    Lg = 0. *)
Definition one_band (s : sound_source) : bool := forallb (fun d => (length d <=? 1)%nat) (damping s).
Definition truncate_int (x : R) : Z := if Rle_dec 0 x then Zfloor x else Zceil x.
Section RirMatrix.
Variables (c fs epsilon : R) (Lg : nat) (unit_damping : bool).
(** soundsource.py:302-326; [t_min] and [offset] shift the times *)
Definition channel (s : sound_source) (m : vec) (t_min offset : R) (Lh : nat) : option vec :=
  let* dist := distances s m in
  if existsb (fun d => if Req_EM_T d 0 then true else false) dist then None else
  Some (dirac_train fs Lh (map (fun d => d / c - t_min + offset) dist) (rir_gains unit_damping s dist)).
(** soundsource.py:250-335. The rows of H; block (r, s) is the transpose of the convolution matrix. *)
Definition build_rir_matrix (mics : list vec) (sources : list sound_source) : option (list vec) :=
  if negb (forallb one_band sources) then None else
  let* b := foldM (rir_bounds_step mics unit_damping) sources {| b_min := None; b_max := 0; b_gain := 0 |} in
  let* d_min := b_min b in
  let t_max := b_max b / c in
  let t_min := d_min / c in
  let offset := b_gain b / (PI * fs * epsilon) in
  let Lh := Z.to_nat (truncate_int ((t_max - t_min + 2 * offset) * fs)) in
  let* blocks := mapM (fun m => mapM (fun s => let* h := channel s m t_min offset Lh in convmtx h Lg) sources) mics in
  Some (concat (map (fun row => map (fun i => concat (map (fun C => map (fun r => nth i r 0) C) row)) (seq 0 Lg)) blocks)).
End RirMatrix.
