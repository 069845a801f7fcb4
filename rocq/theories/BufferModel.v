(** /repo/pyroomacoustics/adaptive/data_structures.py: Buffer, Powers, CoinFlipper.

    numpy arrays are lists.  Numbers of elements given to [top], [flush] and [flip] are
    non-negative. *)
From Coq Require Import List ZArith Lia Reals Bool.
From Verif Require Import Base.
Import ListNotations.

(** Python slice [l[a:b]] with non-negative bounds. *)
Definition slice {A} (a b : nat) (l : list A) : list A := firstn (b - a) (skipn a l).

Section Buffer.
Context {A : Type}.
Variable zero : A.

(** data_structures.py:18-21 *)
Record buffer := { b_buf : list A; b_len : nat; b_head : nat }.
Definition new_buffer (length : nat) : buffer := {| b_buf := repeat zero length; b_len := length; b_head := length |}.

(** data_structures.py:23-38.  [None]: IndexError. *)
Definition push (val : A) (b : buffer) : option buffer :=
  let b := if Nat.eqb (b_head b) 0
           then {| b_buf := repeat zero (b_len b) ++ b_buf b; b_head := b_head b + b_len b; b_len := b_len b * 2 |}
           else b in
  match b_head b with
  | O => match rev (b_buf b) with  (* index -1, the last element *)
         | [] => None
         | _ :: r => Some {| b_buf := rev (val :: r); b_len := b_len b; b_head := 0 |}
         end
  | S h => let* buf := store (b_buf b) h val in Some {| b_buf := buf; b_len := b_len b; b_head := h |}
  end.

(** data_structures.py:40-43 *)
Definition top (n : nat) (b : buffer) : list A := slice (b_head b) (b_head b + n) (b_buf b).

(** data_structures.py:45-58.  [-n] as a slice end is the end of the array minus [n], except
    that [-0] is 0; assigning an array of another length is a ValueError (a single element
    is repeated). *)
Definition assign_tail (new_head : nat) (src buf : list A) : option (list A) :=
  let room := (length buf - new_head)%nat in
  if Nat.eqb (length src) room then Some (firstn new_head buf ++ src)
  else match src with [x] => Some (firstn new_head buf ++ repeat x room) | _ => None end.
Definition flush (n : nat) (b : buffer) : option buffer :=
  let n := if (b_len b - b_head b <? n)%nat then (b_len b - b_head b)%nat else n in
  let new_head := (b_head b + n)%nat in
  let stop := if Nat.eqb n 0 then 0%nat else (length (b_buf b) - n)%nat in
  let* buf := assign_tail new_head (slice (b_head b) stop (b_buf b)) (b_buf b) in
  Some {| b_buf := buf; b_len := b_len b; b_head := new_head |}.

(** data_structures.py:60-62 *)
Definition size (b : buffer) : nat := b_len b - b_head b.
(** data_structures.py:64-71 with an integer index; negative indices count from the end. *)
Definition get (r : Z) (b : buffer) : option A :=
  let ptr := skipn (b_head b) (b_buf b) in
  let i := (if r <? 0 then r + Z.of_nat (length ptr) else r)%Z in
  if (i <? 0)%Z then None else nth_error ptr (Z.to_nat i).

(** What a client can do, and the answers. *)
Inductive bop := Push (v : A) | Flush (n : nat) | Top (n : nat) | Size | Get (r : Z).
Inductive answer := ANone | AList (l : list A) | ASize (n : nat) | AElt (x : option A).
Definition buffer_step (b : buffer) (o : bop) : option (buffer * answer) :=
  match o with
  | Push v => let* b := push v b in Some (b, ANone)
  | Flush n => let* b := flush n b in Some (b, ANone)
  | Top n => Some (b, AList (top n b))
  | Size => Some (b, ASize (size b))
  | Get r => Some (b, AElt (get r b))
  end.
Fixpoint buffer_run (b : buffer) (ops : list bop) : option (list answer) :=
  match ops with
  | [] => Some []
  | o :: ops => let* r := buffer_step b o in let* rs := buffer_run (fst r) ops in Some (snd r :: rs)
  end.
End Buffer.
Arguments buffer : clear implicits.
Arguments bop : clear implicits.
Arguments answer : clear implicits.

(** ** Powers (data_structures.py:79-127): the state is the table. *)
Local Open Scope R_scope.
Definition new_powers (a : R) (len : nat) : list R := map (pow a) (seq 0 len).
(** 115-119: extend the table up to [high] *)
Definition extend (a : R) (high : nat) (pwr : list R) : list R :=
  if (length pwr <? high)%nat then pwr ++ map (pow a) (seq (length pwr) (high - length pwr)) else pwr.
Inductive pindex := PInt (k : nat) | PSlice (start stop : nat) | PSliceBack (start stop : nat) | PList (ks : list nat).
(** 105-121: an integer, [start:stop], [start:stop:-1], or a list.  Returns the new table and
    the powers; [None]: max of an empty list (ValueError). *)
Definition powers_get (a : R) (r : pindex) (pwr : list R) : option (list R * list R) :=
  match r with
  | PInt k => let pwr := extend a (k + 1) pwr in let* x := nth_error pwr k in Some (pwr, [x])
  | PSlice start stop => let pwr := extend a stop pwr in Some (pwr, slice start stop pwr)
  | PSliceBack start stop => let pwr := extend a stop pwr in
      Some (pwr, rev (slice (stop + 1) (start + 1) pwr))
  | PList [] => None
  | PList ks => let pwr := extend a (list_max ks + 1) pwr in let* xs := mapM (nth_error pwr) ks in Some (pwr, xs)
  end.
Fixpoint powers_run (a : R) (pwr : list R) (rs : list pindex) : option (list (list R)) :=
  match rs with
  | [] => Some []
  | r :: rs => let* x := powers_get a r pwr in let* xs := powers_run a (fst x) rs in Some (snd x :: xs)
  end.
Close Scope R_scope.

(** ** CoinFlipper (data_structures.py:130-181).
    The random generator is a stream; the buffer stores positions in the stream, the coin
    at position [k] being [random_k < p]. *)
Record flipper := { f_buffer : list nat; f_length : nat; f_dirty : nat; f_drawn : nat }.
(** 146-150 *)
Definition new_flipper (length : nat) : flipper :=
  {| f_buffer := seq 0 length; f_length := length; f_dirty := 0; f_drawn := length |}.
(** 152-155: [n] new draws *)
Definition fresh_flips (n : nat) (f : flipper) : list nat := seq (f_drawn f) n.
(** 157-162; [None]: lengths differ in the assignment *)
Definition flip_all (f : flipper) : option flipper :=
  let old := slice 0 (f_dirty f) (f_buffer f) in
  let new := fresh_flips (f_dirty f) f in
  if negb (Nat.eqb (length old) (length new)) then None else
  Some {| f_buffer := new ++ skipn (f_dirty f) (f_buffer f); f_length := f_length f; f_dirty := 0; f_drawn := f_drawn f + f_dirty f |}.
(** 164-181; the returned array is a view of the buffer, here its contents at that time *)
Definition flip (n : nat) (f : flipper) : option (flipper * list nat) :=
  let f := if (f_length f <? n)%nat
           then {| f_buffer := firstn (f_length f) (f_buffer f) ++ fresh_flips (2 * n - f_length f) f;
                   f_length := 2 * n; f_dirty := f_dirty f; f_drawn := f_drawn f + (2 * n - f_length f) |}
           else f in
  let* f := if (f_length f - f_dirty f <? n)%nat then flip_all f else Some f in
  Some ({| f_buffer := f_buffer f; f_length := f_length f; f_dirty := f_dirty f + n; f_drawn := f_drawn f |},
        slice (f_dirty f) (f_dirty f + n) (f_buffer f)).
Fixpoint flip_run (f : flipper) (ns : list nat) : option (flipper * list (list nat)) :=
  match ns with
  | [] => Some (f, [])
  | n :: ns => let* r := flip n f in let* rs := flip_run (fst r) ns in Some (fst rs, snd r :: snd rs)
  end.
