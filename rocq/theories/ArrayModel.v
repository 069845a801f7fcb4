(* Microphone array geometries and the MicrophoneArray container.
   Source: /repo/pyroomacoustics/beamforming.py lines 90-560. *)
From Coq Require Import Reals List ZArith Lia Lra.
From Verif Require Import Base Vec RirModel SphereModel.
Import ListNotations.
Local Open Scope R_scope.

(* beamforming.py:90  unit_vec2D(phi) *)
Definition unit_vec2D (phi : R) : list R := [cos phi; sin phi].

(* beamforming.py:95-117  linear_2D_array: centre + d (m - (M-1)/2) u(phi); the
   columns of the returned (2, M) array are the elements of the list. *)
Definition linear_2D_array (center : list R) (M : nat) (phi d : R) : list (list R) :=
  map (fun m => vadd center (vscal (d * (INR m - (INR M - 1) / 2)) (unit_vec2D phi))) (seq 0 M).

(* beamforming.py:120-143  circular_2D_array *)
Definition circular_2D_array (center : list R) (M : nat) (phi0 radius : R) : list (list R) :=
  map (fun m => let phi := INR m * 2 * PI / INR M in
                vadd center (vscal radius [cos (phi + phi0); sin (phi + phi0)])) (seq 0 M).

(* numpy.mean(R, axis=1) of a (dim, n) array given by its columns; NaN (None)
   when there is no column. *)
Definition column_mean (dim : nat) (cols : list (list R)) : option (list R) :=
  match cols with
  | [] => None
  | _ => Some (map (fun k => Rsum (map (fun p => nth k p 0) cols) / INR (length cols)) (seq 0 dim))
  end.

(* beamforming.py:146-172  poisson_2D_array: the steps d * Exp * (+-1) are the
   random draws; they are an argument.  Cumulative sum, centring, translation. *)
Fixpoint cumsum_from (acc : list R) (steps : list (list R)) : list (list R) :=
  match steps with [] => [] | s :: r => vadd acc s :: cumsum_from (vadd acc s) r end.
Definition poisson_2D_array (center : list R) (steps : list (list R)) : option (list (list R)) :=
  let Rc := cumsum_from [0; 0] steps in
  match column_mean 2 Rc with
  | None => Some []
  | Some m => Some (map (fun p => vadd (vminus p m) center) Rc)
  end.

(* beamforming.py:175-202  square_2D_array: M rows, each a linear array of N
   points centred on a point of a perpendicular linear array. *)
Definition square_2D_array (center : list R) (M N : nat) (phi d : R) : list (list R) :=
  concat (map (fun c => linear_2D_array c N phi d) (linear_2D_array center M (phi + PI / 2) d)).

(* beamforming.py:205-245  spiral_2D_array with the rotation offset given (when
   angle is None the offset is a random number; it is then the argument).
   Entry n of the flattened angle table is 2 pi (n mod divi)/divi
   + (2 pi/divi) (n / divi)/num_seg; a zero is inserted in front of the first
   M - 1 of them. *)
Definition spiral_angle (M divi n : nat) : R :=
  let num_seg := ((M + divi - 1) / divi)%nat in
  PI * 2 * INR (n mod divi) / INR divi + 2 * PI / INR divi * INR (n / divi)%nat / INR num_seg.
Definition spiral_2D_array (center : list R) (M : nat) (radius : R) (divi : nat) (angle : R) : list (list R) :=
  map (fun m => let r := radius * INR m / INR M in
                let a := (match m with O => 0 | S n => spiral_angle M divi n end) + angle in
                vadd center [r * cos a; r * sin a]) (seq 0 M).

(* directivities/direction.py:57-76  DirectionVector(...)._unit_v; None when the
   assertion on the colatitude fails. *)
Definition direction_vector (azimuth : R) (colatitude : option R) (degrees : bool) : option (list R) :=
  let az := if degrees then radians azimuth else azimuth in
  let co := match colatitude with
            | Some c => if degrees then radians c else c
            | None => PI / 2
            end in
  if andb (if Rle_dec co PI then true else false) (if Rle_dec 0 co then true else false)
  then Some [cos az * sin co; sin az * sin co; cos co] else None.

(* beamforming.py:265-335  circular_microphone_array_xyplane: positions and the
   orientation given to each microphone's copy of the directivity.  The
   constructed MicrophoneArray and the plotting are left out. *)
Definition circular_xyplane (center : list R) (M : nat) (phi0 radius : R) : option (list (list R) * list (list R)) :=
  let flat := circular_2D_array (firstn 2 center) M phi0 radius in
  let is3 := Nat.eqb (length center) 3 in
  let pos := if is3 then map (fun p => p ++ [nth 2 center 0]) flat else flat in
  let colatitude := if is3 then Some 90 else None in
  let* ori := mapM (fun i => direction_vector (INR i * 360 / INR M + phi0) colatitude true) (seq 0 M) in
  Some (pos, ori).

(* ------------------------------------------------------------------ *)
(* MicrophoneArray, beamforming.py:341-560.  D stands for Directivity objects.
   Arrays are given as their shape together with their columns (positions) or
   rows (signals).  Sharing of the recorded array with the caller is not
   modelled. *)
Section Container.
Context {D : Type}.

(* An argument given where a Directivity, None or something else may stand. *)
Inductive item := Dir (d : D) | NoDir | Junk.
Inductive dirs := One (x : item) | Many (l : list item).
Definition item_value (x : item) : option (option D) :=
  match x with Dir d => Some (Some d) | NoDir => Some None | Junk => None end.

Record signals2 := { sig_len : nat; sig_rows : list (list R) }.

Record mics := {
  dim : nat;
  pos : list (list R);
  mic_fs : R;
  directivity : list (option D);
  recorded : option signals2;
  center : option (list R)
}.
Definition nmic (s : mics) : nat := length (pos s).

(* beamforming.py:395-431  set_directivity; the flag tells that an exception
   was raised. *)
Definition set_directivity (s : mics) (x : dirs) : mics * bool :=
  match x with
  | Many l =>
      match mapM item_value l with
      | None => (s, true)
      | Some v => if Nat.eqb (length l) (nmic s)
                  then ({| dim := dim s; pos := pos s; mic_fs := mic_fs s; directivity := v;
                           recorded := recorded s; center := center s |}, false)
                  else (s, true)
      end
  | One x =>
      match item_value x with
      | None => (s, true)
      | Some d => ({| dim := dim s; pos := pos s; mic_fs := mic_fs s; directivity := repeat d (nmic s);
                      recorded := recorded s; center := center s |}, false)
      end
  end.

(* beamforming.py:344-368  __init__; None when it raises.  R is the array of
   shape (rows, length cols). *)
Definition make_mics (rows : nat) (cols : list (list R)) (fs : R) (x : dirs) : option mics :=
  if orb (Nat.eqb rows 2) (Nat.eqb rows 3)
  then let s := {| dim := rows; pos := cols; mic_fs := fs; directivity := []; recorded := None;
                   center := column_mean rows cols |} in
       let (s', raised) := set_directivity s x in
       if raised then None else Some s'
  else None.

Definition with_signals (s : mics) (g : signals2) : mics :=
  {| dim := dim s; pos := pos s; mic_fs := mic_fs s; directivity := directivity s;
     recorded := Some g; center := center s |}.

(* What the installation provides: utilities.resample acts on the last axis of
   the array (all rows get the same length); the samplerate package may be
   missing. *)
Record backend := {
  out_len : nat -> R -> R -> nat;
  resample_row : R -> R -> list R -> list R;
  samplerate : option (R -> list R -> list R)
}.

(* the loop over the rows, beamforming.py:470-474: every row is assigned into a
   row of length newL; numpy broadcasts a single value. *)
Definition fill_row (newL : nat) (r : list R) : option (list R) :=
  if Nat.eqb (length r) newL then Some r
  else match r with [x] => Some (repeat x newL) | _ => None end.
Fixpoint fill_rows (newL : nat) (todo : list (list R)) : list (list R) * bool :=
  match todo with
  | [] => ([], false)
  | r :: rest =>
      match fill_row newL r with
      | None => (map (fun _ => repeat 0 newL) todo, true)
      | Some v => let (done, raised) := fill_rows newL rest in (v :: done, raised)
      end
  end.

(* beamforming.py:433-482  record *)
Definition record (b : backend) (s : mics) (ndim : nat) (g : signals2) (fs : R) : mics * bool :=
  if negb (Nat.eqb (length (sig_rows g)) (nmic s)) then (s, true)
  else if negb (Nat.eqb ndim 2) then (s, true)
  else if Req_EM_T fs (mic_fs s) then (with_signals s g, false)
  else
    let s1 := with_signals s {| sig_len := out_len b (sig_len g) fs (mic_fs s);
                                sig_rows := map (resample_row b fs (mic_fs s)) (sig_rows g) |} in
    match samplerate b with
    | None => (s1, true)
    | Some sr =>
        let ratio := mic_fs s / fs in
        let newL := (Zfloor (ratio * INR (sig_len g)) - 1)%Z in
        if (newL <? 0)%Z then (s1, true)
        else let (rows, raised) := fill_rows (Z.to_nat newL) (map (sr ratio) (sig_rows g)) in
             (with_signals s {| sig_len := Z.to_nat newL; sig_rows := rows |}, raised)
    end.

(* beamforming.py:531-560  append.  What may be given: a microphone array, a
   2-D numpy array, or a nested list (numpy.concatenate accepts it, but the
   attribute .shape read afterwards does not exist). *)
Inductive locs := Mics (o : mics) | Array (rows : nat) (cols : list (list R)) | Nested (rows : nat) (cols : list (list R)).
Definition pad (s : mics) (n : nat) : option signals2 :=
  match recorded s with
  | None => None
  | Some g => Some {| sig_len := sig_len g; sig_rows := sig_rows g ++ repeat (repeat 0 (sig_len g)) n |}
  end.
Definition append (s : mics) (l : locs) : mics * bool :=
  match l with
  | Mics o =>
      if Nat.eqb (dim o) (dim s)
      then ({| dim := dim s; pos := pos s ++ pos o; mic_fs := mic_fs s;
               directivity := directivity s ++ directivity o;
               recorded := pad s (nmic o); center := center s |}, false)
      else (s, true)
  | Array rows cols =>
      if Nat.eqb rows (dim s)
      then ({| dim := dim s; pos := pos s ++ cols; mic_fs := mic_fs s;
               directivity := directivity s ++ repeat None (length cols);
               recorded := pad s (length cols); center := center s |}, false)
      else (s, true)
  | Nested rows cols =>
      if Nat.eqb rows (dim s)
      then ({| dim := dim s; pos := pos s ++ cols; mic_fs := mic_fs s; directivity := directivity s;
               recorded := recorded s; center := center s |}, true)
      else (s, true)
  end.

Inductive op := Append (l : locs) | SetDirectivity (x : dirs) | Record_ (b : backend) (ndim : nat) (g : signals2) (fs : R).
Definition step (s : mics) (o : op) : mics * bool :=
  match o with
  | Append l => append s l
  | SetDirectivity x => set_directivity s x
  | Record_ b ndim g fs => record b s ndim g fs
  end.
Definition run (s : mics) (l : list op) : mics := fold_left (fun s o => fst (step s o)) l s.
End Container.
Arguments item : clear implicits.
Arguments dirs : clear implicits.
Arguments mics : clear implicits.
Arguments locs : clear implicits.
Arguments op : clear implicits.
