(** /repo/pyroomacoustics/doa/doa.py: ModeVector (21-135), the look-up table of phases used by the direction
    finders, with numpy's indexing and broadcasting of the table.

    The microphone array [L] is the list of its columns, the grid the list of its points (x, y, z).
    [None] is a raised exception. Indices are not negative and slices have no step. *)
From Coq Require Import List ZArith Lia Reals Bool.
From Verif Require Import Base Cpx.
Import ListNotations.
Local Open Scope R_scope.

Inductive mode_kind := Near | Far | OtherMode.
Notation point := (R * R * R)%type (only parsing).

(** 60-70: the third coordinate is zero unless the array has three rows *)
Definition mic_xyz (rows : nat) (r : list R) : R * R * R := (nth 0 r 0, nth 1 r 0, if (rows =? 3)%nat then nth 2 r 0 else 0).
(** 74-80; any other mode leaves [dist] unbound *)
Definition mode_dist (mode : mode_kind) (p r : point) : option R :=
  let '(px, py, pz) := p in let '(rx, ry, rz) := r in
  match mode with
  | Near => Some (sqrt ((px - rx) ^ 2 + (py - ry) ^ 2 + (pz - rz) ^ 2))
  | Far => Some (px * rx + py * ry + pz * rz)
  | OtherMode => None
  end.

(** * numpy arrays: the number of dimensions and the nested entries *)
Inductive tensor (A : Type) := Scal (a : A) | Arr (l : list (tensor A)).
Arguments Scal {A}. Arguments Arr {A}.
Notation array A := (nat * tensor A)%type.
(** what may stand between the brackets, for one axis: an integer, a slice a:b, a list of integers *)
Inductive idx := Int (k : nat) | Slc (a b : nat) | Lst (ks : list nat).
Inductive rdx := RInt (k : nat) | RSlc (ks : list nat) | RLst (ks : list nat).
Definition resolve (n : nat) (i : idx) : option rdx :=
  match i with
  | Int k => if (k <? n)%nat then Some (RInt k) else None
  | Slc a b => Some (RSlc (seq a (Nat.min b n - a)))
  | Lst ks => if forallb (fun k => (k <? n)%nat) ks then Some (RLst ks) else None
  end.

Notation env := (nat * nat * nat)%type.
Definition set_ax (ax v : nat) (e : env) : env :=
  let '(i, j, k) := e in match ax with O => (v, j, k) | S O => (i, v, k) | _ => (i, j, v) end.
Definition is_slc (r : rdx) : bool := match r with RSlc _ => true | _ => false end.
(** lists of different lengths, neither of length one, cannot be broadcast *)
Definition common (a b : option nat) : option nat :=
  match a, b with
  | Some a, Some b => if (a =? 1)%nat then Some b else if (b =? 1)%nat then Some a else if (a =? b)%nat then Some a else None
  | _, _ => None
  end.
Definition pick (ks : list nat) (p : nat) : nat := nth (if (length ks =? 1)%nat then 0 else p) ks 0%nat.
Definition set_int (x : nat * rdx) (e : env) : env := match x with (ax, RInt k) => set_ax ax k e | _ => e end.
Definition set_lst (p : nat) (x : nat * rdx) (e : env) : env := match x with (ax, RLst ks) => set_ax ax (pick ks p) e | _ => e end.
Definition slc_dims (l : list (nat * rdx)) : list (list (env -> env)) :=
  flat_map (fun x => match x with (ax, RSlc ks) => [map (set_ax ax) ks] | _ => [] end) l.
Fixpoint build {A} (f : env -> A) (dims : list (list (env -> env))) (e : env) : tensor A :=
  match dims with [] => Scal (f e) | d :: ds => Arr (map (fun t => build f ds (t e)) d) end.
(** numpy's a[i0, i1, i2] for a three dimensional array: integers and slices alone select a sub-array; with a list,
    integers and lists are read in parallel and their dimension comes first if a slice separates them, and at the
    place of the first of them otherwise. *)
Definition gather {A} (f : env -> A) (a0 a1 a2 : rdx) : option (array A) :=
  let axes := [(0, a0); (1, a1); (2, a2)]%nat in
  let e := fold_right set_int (0, 0, 0)%nat axes in
  let lens := flat_map (fun x => match snd x with RLst ks => [length ks] | _ => [] end) axes in
  let* dims := match lens with
  | [] => Some (slc_dims axes)
  | _ => let* P := fold_right (fun n acc => common (Some n) acc) (Some 1%nat) lens in
         let adv := map (fun p e => fold_right (set_lst p) e axes) (seq 0 P) in
         if negb (is_slc a0) then Some (adv :: slc_dims axes)
         else if negb (is_slc a1) then Some (slc_dims [(0, a0)]%nat ++ adv :: slc_dims [(2, a2)]%nat)
         else Some (slc_dims axes ++ [adv])
  end in Some (length dims, build f dims e).

(** broadcasting of two arrays *)
Fixpoint zip {A B D} (f : A -> B -> D) (d : nat) (a : tensor A) (b : tensor B) : option (tensor D) :=
  match d, a, b with
  | O, Scal x, Scal y => Some (Scal (f x y))
  | S d, Arr l, Arr m =>
      let* r := match l, m with
        | [x], _ => mapM (fun y => zip f d x y) m
        | _, [y] => mapM (fun x => zip f d x y) l
        | _, _ => if (length l =? length m)%nat then mapM (fun p => zip f d (fst p) (snd p)) (combine l m) else None
        end in Some (Arr r)
  | _, _, _ => None
  end.
Definition pad {A} (n : nat) (a : tensor A) : tensor A := Nat.iter n (fun t => Arr [t]) a.
Definition bop {A B D} (f : A -> B -> D) (a : array A) (b : array B) : option (array D) :=
  let d := Nat.max (fst a) (fst b) in
  let* t := zip f d (pad (d - fst a) (snd a)) (pad (d - fst b) (snd b)) in Some (d, t).

(** * The class *)
Record mode_vector := { mv_precompute : bool; mv_tau : list (list R); mv_omega : list R; mv_points : nat }.
(** 33-95 *)
Definition make_mode_vector (rows : nat) (L : list (list R)) (fs : R) (nfft : nat) (c : R) (grid : list point) (mode : mode_kind) (precompute : bool) : option mode_vector :=
  if (nfft mod 2 =? 1)%nat then None else
  let* dist := mapM (fun r => mapM (fun p => mode_dist mode p (mic_xyz rows r)) grid) L in
  Some {| mv_precompute := precompute; mv_tau := map (map (fun d => d / c)) dist;
          mv_omega := map (fun k => 2 * PI * fs * INR k / INR nfft) (seq 0 (nfft / 2 + 1)); mv_points := length grid |}.
Definition tau_at (v : mode_vector) (e : env) : R := let '(_, m, n) := e in nth n (nth m (mv_tau v) []) 0.
Definition omega_at (v : mode_vector) (k : nat) : R := nth k (mv_omega v) 0.
(** 92-93: the table np.exp(1j * omega[:, None, None] * tau) *)
Definition table_at (v : mode_vector) (e : env) : C := let '(k, m, n) := e in cis (omega_at v k * tau_at v (0%nat, m, n)).
Definition is_int (i : idx) : bool := match i with Int _ => true | _ => false end.
(** self.omega[r, None, ..., None] with [j] times None *)
Definition omega_index (v : mode_vector) (r : idx) (j : nat) : option (array R) :=
  let* a := resolve (length (mv_omega v)) r in
  Some match a with
  | RInt k => (j, pad j (Scal (omega_at v k)))
  | RSlc ks | RLst ks => (S j, Arr (map (fun k => pad j (Scal (omega_at v k))) ks))
  end.
Definition missing (l : list idx) (i : nat) (n : nat) : idx := nth i l (Slc 0 n).
(** 97-135: [ref] is the tuple between the brackets. Without the table, fewer than three indices raise (line 113
    reads ref[1] and ref[2]), and so do more. *)
Definition getitem (v : mode_vector) (ref : list idx) : option (array C) :=
  let F := length (mv_omega v) in let M := length (mv_tau v) in let N := mv_points v in
  if mv_precompute v then
    if (3 <? length ref)%nat then None else
    let* a0 := resolve F (missing ref 0 F) in let* a1 := resolve M (missing ref 1 M) in let* a2 := resolve N (missing ref 2 N) in
    gather (table_at v) a0 a1 a2
  else match ref with
  | [r0; r1; r2] =>
      let* w := omega_index v r0 (if is_int r1 && is_int r2 then 0 else if is_int r1 || is_int r2 then 1 else 2)%nat in
      let* a0 := resolve 1 (if is_int r0 then Int 0 else Slc 0 1) in
      let* a1 := resolve M r1 in let* a2 := resolve N r2 in
      let* t := gather (tau_at v) a0 a1 a2 in
      bop (fun w t => cis (w * t)) w t
  | _ => None
  end.
