(** Names of the walls of a room.
    /repo/pyroomacoustics/room.py: Room.__init__ 886-892, _wall_mapping 1202-1207, the names in from_corners 1295-1303 and in
    extrude 1366-1369, 1427-1462, get_wall_by_name 2506-2524, the walls of a shoebox 2855-2904.
    /repo/pyroomacoustics/libroom_src/room.cpp: make_shoebox_walls 108-165 (the names).

    A wall is its name and anything else ([W]): shapes and materials are in PolyRoomModel.  Names are never None, since they
    are strings in C++.  [None] is an exception. *)
From Coq Require Import List ZArith Lia Bool String DecimalString Decimal DecimalNat.
From Verif Require Import Base ParamModel.
Import ListNotations.
Local Open Scope string_scope.

Section Names.
Context {W : Type}.
Definition wall : Type := (string * W)%type.
Record room := { walls : list wall; wallsId : list (string * nat) }.

(** 1202-1207: the binding made last is in front *)
Definition wall_mapping (ws : list wall) : list (string * nat) :=
  fold_left (fun d i => match nth_error ws i with Some w => (fst w, i) :: d | None => d end) (seq 0 (List.length ws)) [].
(** 886-892 *)
Definition new_room (ws : list wall) : room := {| walls := ws; wallsId := wall_mapping ws |}.

(** str(i) *)
Definition str (i : nat) : string := NilEmpty.string_of_uint (Nat.to_uint i).
(** 1295-1303, what the walls are apart from their names being given *)
Definition from_corners (ws : list W) : room := new_room (combine (map (fun i => "wall_" ++ str i) (seq 0 (List.length ws))) ws).
(** room.py 2855-2904 and room.cpp 108-165, the materials given by name: [columns] are those of absorption_array, in the order of
    wall_names; what else a wall is made of ([rest], its corners) depends on its place *)
Definition wall_names (dim : nat) : list string := (["west"; "east"; "south"; "north"] ++ (if Nat.eqb dim 3 then ["floor"; "ceiling"] else []))%list.
Definition shoebox {Mat : Type} (rest : nat -> Mat -> W) (materials : string -> Mat) (default : Mat) (dim : nat) : room :=
  let columns := map materials (wall_names dim) in
  let col k := nth k columns default in
  new_room (if Nat.eqb dim 2
    then [("south", rest 0 (col 2)); ("east", rest 1 (col 1)); ("north", rest 2 (col 3)); ("west", rest 3 (col 0))]
    else [("west", rest 0 (col 0)); ("east", rest 1 (col 1)); ("south", rest 2 (col 2)); ("north", rest 3 (col 3));
          ("floor", rest 4 (col 4)); ("ceiling", rest 5 (col 5))])%nat.
(** 1366-1369 and 1427-1462: new walls, old mapping; [sides] has one entry for every old wall *)
Definition extrude (r : room) (sides : list W) (floor ceiling : W) : room :=
  {| walls := (combine (map str (seq 0 (List.length (walls r)))) sides ++ [("floor", floor); ("ceiling", ceiling)])%list; wallsId := wallsId r |}.

(** 2521-2524 *)
Definition get_wall_by_name (r : room) (name : string) : option wall :=
  let* i := lookup name (wallsId r) in nth_error (walls r) i.
End Names.
