(** Energy histograms: common.hpp:69-179 ([get_new_size], [Histogram2D]) and
    microphone.hpp:38-148 ([Microphone]) of /repo/pyroomacoustics/libroom_src.

    Simplifications: [float] is [R]; sizes and indices are natural numbers; an Eigen
    array is its dimensions and a function from (row, column); cells created by
    [conservativeResize] hold an unspecified value ([junk]) until they are written; a
    violated Eigen bounds or shape assertion is [None]; the kd-tree query is an
    argument. *)
From Coq Require Import List ZArith Lia Reals Lra Bool.
From Verif Require Import Base Vec.
Import ListNotations.
Local Open Scope R_scope.

(** common.hpp:69-75 [get_new_size]: [while (val >= new_size) new_size *= 2]; [None]
    when the fuel does not suffice. *)
Fixpoint get_new_size (fuel val new_size : nat) : option nat :=
  match fuel with
  | O => None
  | S f => if Nat.leb new_size val then get_new_size f val (new_size * 2) else Some new_size
  end.

Record mat (A : Type) := { m_rows : nat; m_cols : nat; m_at : nat -> nat -> A }.
Arguments m_rows {A}. Arguments m_cols {A}. Arguments m_at {A}.

(** [resize] (contents unspecified) and [setZero] *)
Definition fresh {A} (junk : nat -> nat -> A) (r c : nat) : mat A := {| m_rows := r; m_cols := c; m_at := junk |}.
Definition set_zero {A} (z : A) (m : mat A) : mat A :=
  {| m_rows := m_rows m; m_cols := m_cols m; m_at := fun _ _ => z |}.
(** [conservativeResize] *)
Definition conservative {A} (junk : nat -> nat -> A) (m : mat A) (r c : nat) : mat A :=
  {| m_rows := r; m_cols := c;
     m_at := fun i j => if Nat.ltb i (m_rows m) && Nat.ltb j (m_cols m) then m_at m i j else junk i j |}.
(** [bottomRows(k).setZero()] and [rightCols(k).setZero()] *)
Definition bottom_zero {A} (z : A) (m : mat A) (k : nat) : mat A :=
  {| m_rows := m_rows m; m_cols := m_cols m;
     m_at := fun i j => if Nat.leb (m_rows m - k) i then z else m_at m i j |}.
Definition right_zero {A} (z : A) (m : mat A) (k : nat) : mat A :=
  {| m_rows := m_rows m; m_cols := m_cols m;
     m_at := fun i j => if Nat.leb (m_cols m - k) j then z else m_at m i j |}.
(** Update of the cells where [sel] holds. *)
Definition update {A} (m : mat A) (sel : nat -> nat -> bool) (f : nat -> nat -> A -> A) : mat A :=
  {| m_rows := m_rows m; m_cols := m_cols m;
     m_at := fun i j => if sel i j then f i j (m_at m i j) else m_at m i j |}.

(** The unspecified contents of new cells, for the two arrays. *)
Record garbage := { g_array : nat -> nat -> R; g_counts : nat -> nat -> Z }.

(** The two arrays of [Histogram2D]. *)
Record hist := { hs_array : mat R; hs_counts : mat Z }.

(** common.hpp:91-97 [init] *)
Definition init (g : garbage) (r c : nat) : hist :=
  {| hs_array := set_zero 0 (fresh (g_array g) r c); hs_counts := set_zero 0%Z (fresh (g_counts g) r c) |}.
(** common.hpp:99-103 [reset] *)
Definition reset (h : hist) : hist :=
  {| hs_array := set_zero 0 (hs_array h); hs_counts := set_zero 0%Z (hs_counts h) |}.

(** common.hpp:105-117 [resize_rows] *)
Definition resize_rows (g : garbage) (h : hist) (n : nat) : hist :=
  let old := m_rows (hs_array h) in
  let a := conservative (g_array g) (hs_array h) n (m_cols (hs_array h)) in
  let c := conservative (g_counts g) (hs_counts h) n (m_cols (hs_counts h)) in
  if Nat.ltb old n
  then {| hs_array := bottom_zero 0 a (n - old); hs_counts := bottom_zero 0%Z c (n - old) |}
  else {| hs_array := a; hs_counts := c |}.
(** common.hpp:119-131 [resize_cols] *)
Definition resize_cols (g : garbage) (h : hist) (n : nat) : hist :=
  let old := m_cols (hs_array h) in
  let a := conservative (g_array g) (hs_array h) (m_rows (hs_array h)) n in
  let c := conservative (g_counts g) (hs_counts h) (m_rows (hs_counts h)) n in
  if Nat.ltb old n
  then {| hs_array := right_zero 0 a (n - old); hs_counts := right_zero 0%Z c (n - old) |}
  else {| hs_array := a; hs_counts := c |}.

Definition grow_rows (g : garbage) (h : hist) (row : nat) : option hist :=
  if Nat.leb (m_rows (hs_array h)) row
  then let* n := get_new_size (S row) row (m_rows (hs_array h)) in Some (resize_rows g h n) else Some h.
Definition grow_cols (g : garbage) (h : hist) (col : nat) : option hist :=
  if Nat.leb (m_cols (hs_array h)) col
  then let* n := get_new_size (S col) col (m_cols (hs_array h)) in Some (resize_cols g h n) else Some h.

(** common.hpp:133-143 [log] *)
Definition log (g : garbage) (h : hist) (row col : nat) (val : R) : option hist :=
  let* h := grow_rows g h row in
  let* h := grow_cols g h col in
  let here i j := Nat.eqb i row && Nat.eqb j col in
  Some {| hs_array := update (hs_array h) here (fun _ _ x => x + val);
          hs_counts := update (hs_counts h) here (fun _ _ x => (x + 1)%Z) |}.

(** common.hpp:145-152 [log_col]: the vector must have as many entries as there are rows. *)
Definition log_col (g : garbage) (h : hist) (col : nat) (val : list R) : option hist :=
  let* h := grow_cols g h col in
  if negb (Nat.eqb (length val) (m_rows (hs_array h))) then None else
  let here i j := Nat.eqb j col in
  Some {| hs_array := update (hs_array h) here (fun i _ x => x + nth i val 0);
          hs_counts := update (hs_counts h) here (fun _ _ x => (x + 1)%Z) |}.

(** common.hpp:154-161 [log_row]: [array.row(row)] is 1 x n and [val] is m x 1, Eigen
    requires the same shape, hence n = m = 1. *)
Definition log_row (g : garbage) (h : hist) (row : nat) (val : list R) : option hist :=
  let* h := grow_rows g h row in
  if negb (Nat.eqb (length val) 1 && Nat.eqb (m_cols (hs_array h)) 1) then None else
  let here i j := Nat.eqb i row in
  Some {| hs_array := update (hs_array h) here (fun _ j x => x + nth j val 0);
          hs_counts := update (hs_counts h) here (fun _ _ x => (x + 1)%Z) |}.

(** common.hpp:163-169 [bin] *)
Definition bin (h : hist) (row col : nat) : R :=
  if negb (m_at (hs_counts h) row col =? 0)%Z
  then m_at (hs_array h) row col / IZR (m_at (hs_counts h) row col) else 0.

(** Calls on a histogram object. *)
Inductive op := LogCell (row col : nat) (v : R) | LogCol (col : nat) (vs : list R) | LogRow (row : nat) (vs : list R) | Reset.
Definition step (g : garbage) (h : hist) (o : op) : option hist :=
  match o with
  | LogCell r c v => log g h r c v
  | LogCol c vs => log_col g h c vs
  | LogRow r vs => log_row g h r vs
  | Reset => Some (reset h)
  end.
(** The object after a list of calls; [gs k] is the garbage met by the k-th call. *)
Fixpoint run (gs : nat -> garbage) (k : nat) (h : hist) (ops : list op) : option hist :=
  match ops with
  | [] => Some h
  | o :: ops' => let* h' := step (gs k) h o in run gs (S k) h' ops'
  end.

(** ** Microphone *)
(** [size_t(x)] of a non-negative [float] *)
Definition trunc (x : R) : nat := Z.to_nat (Int_part x).

Record microphone := {
  mi_loc : vec; mi_dirs : nat; mi_bands : nat; mi_res : R; mi_init : nat; mi_hists : list hist;
}.

(** microphone.hpp:66-73: constructor; 102-107 [reset] *)
Definition mic_reset (g : garbage) (m : microphone) (bands : nat) : microphone :=
  {| mi_loc := mi_loc m; mi_dirs := mi_dirs m; mi_bands := bands; mi_res := mi_res m; mi_init := mi_init m;
     mi_hists := repeat (init g bands (mi_init m)) (mi_dirs m) |}.
Definition make_mic (g : garbage) (loc : vec) (bands : nat) (res max_dist : R) : microphone :=
  mic_reset g {| mi_loc := loc; mi_dirs := 1; mi_bands := bands; mi_res := res;
                 mi_init := trunc (max_dist / res) + 1; mi_hists := [] |} bands.
(** microphone.hpp:83-91 [set_directions] *)
Definition set_directions (g : garbage) (m : microphone) (n : nat) : microphone :=
  mic_reset g {| mi_loc := mi_loc m; mi_dirs := n; mi_bands := mi_bands m; mi_res := mi_res m;
                 mi_init := mi_init m; mi_hists := mi_hists m |} (mi_bands m).

(** microphone.hpp:111-127 [get_dir_bin]; [query] is the kd-tree. *)
Definition get_dir_bin (query : vec -> nat) (m : microphone) (origin : vec) : nat :=
  if Nat.eqb (mi_dirs m) 1 then 0%nat else query (vnormalized (vminus origin (mi_loc m))).

Definition replace_nth {A} (l : list A) (k : nat) (a : A) : option (list A) := store l k a.

(** microphone.hpp:129-136 [log_histogram] *)
Definition log_histogram (g : garbage) (query : vec -> nat) (m : microphone) (distance : R) (energy : list R)
    (origin : vec) : option microphone :=
  let dist_bin := trunc (distance / mi_res m) in
  let dir := get_dir_bin query m origin in
  let* h := nth_error (mi_hists m) dir in
  let* h' := log_col g h dist_bin energy in
  let* hs := store (mi_hists m) dir h' in
  Some {| mi_loc := mi_loc m; mi_dirs := mi_dirs m; mi_bands := mi_bands m; mi_res := mi_res m;
          mi_init := mi_init m; mi_hists := hs |}.
Fixpoint log_all (gs : nat -> garbage) (k : nat) (query : vec -> nat) (m : microphone)
    (es : list (R * list R * list R)) : option microphone :=
  match es with
  | [] => Some m
  | (d, e, o) :: es' => let* m' := log_histogram (gs k) query m d e o in log_all gs (S k) query m' es'
  end.
