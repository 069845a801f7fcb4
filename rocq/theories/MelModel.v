(** /repo/pyroomacoustics/acoustics.py: melfilterbank 978-1021, critical_bands 866-932, bands_hz2s 935-965,
    binning 43-52.  Real numbers instead of floats.  [None]: an exception, NaN or infinity. *)
From Coq Require Import List ZArith Lia Reals Lra Bool R_Ifp.
From Verif Require Import Base Vec ReverbModel.
Import ListNotations.
Local Open Scope R_scope.

(** 1003-1006: edges and centres of the filters, in bins of the DFT *)
Definition centre (M N : nat) (fs fl fh : R) (i : nat) : R :=
  INR N / fs * invmelscale (melscale (fl * fs) + INR i * (melscale (fh * fs) - melscale (fl * fs)) / INR (M + 1)).
(** 1011-1019, H[m - 1, k]: the falling slope is written last.  Where it is evaluated no denominator is zero
    for filters with rising edges; with falling ones nothing is selected. *)
Definition mel_weight (f : nat -> R) (m k : nat) : R :=
  if Rle_dec (f m) (INR k) then
    if Rlt_dec (INR k) (f (m + 1)%nat) then 2 * (f (m + 1)%nat - INR k) / ((f (m + 1)%nat - f (m - 1)%nat) * (f (m + 1)%nat - f m)) else 0
  else if Rlt_dec (f (m - 1)%nat) (INR k) then 2 * (INR k - f (m - 1)%nat) / ((f (m + 1)%nat - f (m - 1)%nat) * (f m - f (m - 1)%nat)) else 0.
Definition melfilterbank (M N : nat) (fs fl fh : R) : option (list (list R)) :=
  if Req_EM_T fs 0 then None else
  if Rle_dec (1 + fl * fs / 700) 0 then None else if Rle_dec (1 + fh * fs / 700) 0 then None else
  Some (map (fun m => map (mel_weight (centre M N fs fl fh) m) (seq 0 (N / 2 + 1))) (seq 1 M)).

(** 866-932 *)
Definition fc_table : list R := [50; 150; 250; 350; 450; 570; 700; 840; 1000; 1170; 1370; 1600; 1850; 2150; 2500; 2900; 3400; 4000; 4800; 5800; 7000; 8500; 10500; 13500].
Definition fb_table : list R := [0; 100; 200; 300; 400; 510; 630; 770; 920; 1080; 1270; 1480; 1720; 2000; 2320; 2700; 3150; 3700; 4400; 5300; 6400; 7700; 9500; 12000; 15500].
Definition critical_bands : list (R * R) * list R :=
  (map (fun j => (nth j fb_table 0, nth (j + 1) fb_table 0)) (seq 0 (length fb_table - 1)), fc_table).

(** np.around: to the nearest integer, halves to the even one *)
Definition around (x : R) : Z :=
  let z := Int_part x in
  let r := x - IZR z in
  if Rlt_dec r (/ 2) then z else if Rlt_dec (/ 2) r then (z + 1)%Z else if Z.even z then z else (z + 1)%Z.
(** 956, bands_s[-1][1] = N / 2, which the conversion to integers rounds down *)
Fixpoint end_last (e : Z) (l : list (Z * Z)) : list (Z * Z) :=
  match l with [] => [] | [b] => [(fst b, e)] | b :: l' => b :: end_last e l' end.
(** 959-964 *)
Fixpoint drop_duplicates (l : list (Z * Z)) : list (Z * Z) :=
  match l with
  | a :: (b :: _) as l' => if Z.eqb (fst a) (fst b) then drop_duplicates l' else a :: drop_duplicates l'
  | _ => l
  end.
(** 935-965; [None]: no bands at all, or none that starts below the limit (IndexError), or no bins *)
Definition bands_hz2s (bands : list (R * R)) (Fs : R) (N : nat) (dct : bool) : option (list (Z * Z)) :=
  match bands with [] => None | b0 :: _ =>
  if Nat.eqb N 0 then None else if Req_EM_T Fs 0 then None else
  let B := if dct then Fs / 2 / INR N else Fs / INR N in
  let limit := Rmin (Fs / 2) (snd (last bands b0)) in
  let bands_s := map (fun b => (around (fst b / B), around (snd b / B))) (filter (fun b => if Rle_dec (fst b) limit then true else false) bands) in
  match bands_s with [] => None | _ => Some (drop_duplicates (end_last (Z.of_nat N / 2) bands_s)) end
  end.
(** 43-52, one row of [S]; the bands are not negative.  The mean of nothing is NaN. *)
Definition binning (row : list R) (bands : list (nat * nat)) : option (list R) :=
  mapM (fun b => let l := firstn (snd b - fst b) (skipn (fst b) row) in if Nat.eqb (length l) 0 then None else Some (Rsum l / INR (length l))) bands.
