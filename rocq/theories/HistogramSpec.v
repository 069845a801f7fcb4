(** Vocabulary for the statements about histograms. *)
From Coq Require Import List ZArith Reals Bool.
From Verif Require Import Base Vec HistogramModel.
Import ListNotations.
Local Open Scope R_scope.

(** Values one call logs to the cell (i, j). *)
Definition logged1 (i j : nat) (o : op) : list R :=
  match o with
  | LogCell r c v => if Nat.eqb i r && Nat.eqb j c then [v] else []
  | LogCol c vs => if Nat.eqb j c then firstn 1 (skipn i vs) else []
  | LogRow r vs => if Nat.eqb i r then firstn 1 (skipn j vs) else []
  | Reset => []
  end.
(** Values logged to (i, j) since the last reset, oldest first. *)
Fixpoint logged (i j : nat) (ops : list op) (acc : list R) : list R :=
  match ops with
  | [] => acc
  | Reset :: ops' => logged i j ops' []
  | o :: ops' => logged i j ops' (acc ++ logged1 i j o)
  end.

(** Energies in band [b] of the arrivals whose distance falls in the k-th bin and whose
    direction falls in the d-th sector. *)
Definition arrivals (sector : vec -> nat) (res : R) (d b k : nat) (es : list (R * list R * list R)) : list R :=
  flat_map (fun e => let '(dist, energy, origin) := e in
    if Nat.eqb (sector origin) d &&
       (if Rle_dec (INR k * res) dist then if Rlt_dec dist (INR (S k) * res) then true else false else false)
    then [nth b energy 0] else []) es.
