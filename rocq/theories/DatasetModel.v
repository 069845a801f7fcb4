(* Dataset containers.  Source: /repo/pyroomacoustics/datasets/base.py lines
   15-57 (Meta), 194-243 (Dataset).  Attribute names are strings; attribute
   values are hashable values of a type V with decidable equality, or objects
   that cannot be hashed (lists, arrays), kept apart as Unhashable with an
   identity.  Python dictionaries are association lists in insertion order. *)
From Coq Require Import List String Bool Arith Lia.
From Verif Require Import Base.
Import ListNotations.

Section Data.
Context {V D : Type} (Veq : forall a b : V, {a = b} + {a <> b}).

Inductive value := Hash (v : V) | Unhashable (id : nat).
Definition value_eq_dec : forall a b : value, {a = b} + {a <> b}.
Proof. decide equality. apply Nat.eq_dec. Defined.

(* lines 28-31: keyword arguments, hence distinct names *)
Definition meta := list (string * value).
Record sample := { s_data : D; s_meta : meta }.

Fixpoint lookup {A} (k : string) (m : list (string * A)) : option A :=
  match m with
  | [] => None
  | (k', v) :: r => if string_dec k k' then Some v else lookup k r
  end.

(* A keyword argument of match: a plain value, a list, or a callable (whose
   comparison with an attribute by == is false). *)
Inductive criterion := Equal (v : value) | OneOf (l : list value) | Test (f : value -> bool).
Definition accepts (c : criterion) (a : value) : bool :=
  match c with
  | Equal v => if value_eq_dec a v then true else false
  | OneOf l => existsb (fun v => if value_eq_dec a v then true else false) l
  | Test f => f a
  end.
(* lines 33-64; None: AttributeError *)
Fixpoint matches (m : meta) (kw : list (string * criterion)) : option bool :=
  match kw with
  | [] => Some true
  | (k, c) :: r => let* a := lookup k m in if accepts c a then matches m r else Some false
  end.

(* lines 190-192, 194-209.  The table of one attribute: value, count. *)
Definition counts := list (V * nat).
Record dataset := { d_samples : list sample; d_info : list (string * counts) }.
Definition empty_dataset : dataset := {| d_samples := []; d_info := [] |}.
Fixpoint count_up (v : V) (t : counts) : counts :=
  match t with
  | [] => [(v, 1)]
  | (v', n) :: r => if Veq v v' then (v', S n) :: r else (v', n) :: count_up v r
  end.
Fixpoint info_up (k : string) (v : V) (i : list (string * counts)) : list (string * counts) :=
  match i with
  | [] => [(k, count_up v [])]
  | (k', t) :: r => if string_dec k k' then (k', count_up v t) :: r else (k', t) :: info_up k v r
  end.
(* self.info[key] = {} has already been done when val not in self.info[key]
   raises TypeError for an unhashable value *)
Fixpoint info_touch (k : string) (i : list (string * counts)) : list (string * counts) :=
  match i with
  | [] => [(k, [])]
  | (k', t) :: r => if string_dec k k' then i else (k', t) :: info_touch k r
  end.
Fixpoint add_info (m : meta) (i : list (string * counts)) : bool * list (string * counts) :=
  match m with
  | [] => (true, i)
  | (k, Hash v) :: r => add_info r (info_up k v i)
  | (k, Unhashable _) :: r => (false, info_touch k i)
  end.
(* the boolean is false when an exception is raised *)
Definition add_sample (d : dataset) (s : sample) : bool * dataset :=
  let (ok, i) := add_info (s_meta s) (d_info d) in
  if ok then (true, {| d_samples := d_samples d ++ [s]; d_info := i |})
  else (false, {| d_samples := d_samples d; d_info := i |}).
(* lines 211-219 *)
Definition add_sample_matching (d : dataset) (s : sample) (kw : list (string * criterion)) : bool * dataset :=
  match matches (s_meta s) kw with
  | None => (false, d)
  | Some true => add_sample d s
  | Some false => (true, d)
  end.
(* lines 221-237 *)
Definition filter_step (kw : list (string * criterion)) (acc : option dataset) (s : sample) : option dataset :=
  let* d := acc in let (ok, d') := add_sample_matching d s kw in if ok then Some d' else None.
Definition filter_dataset (d : dataset) (kw : list (string * criterion)) : option dataset :=
  fold_left (filter_step kw) (d_samples d) (Some empty_dataset).

(* A history of calls; failed calls leave what they had done. *)
Inductive op := Add (s : sample) | AddMatching (s : sample) (kw : list (string * criterion)).
Definition step (d : dataset) (o : op) : dataset :=
  match o with
  | Add s => snd (add_sample d s)
  | AddMatching s kw => snd (add_sample_matching d s kw)
  end.
Definition run (l : list op) : dataset := fold_left step l empty_dataset.
End Data.
