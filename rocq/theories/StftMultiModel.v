(** /repo/pyroomacoustics/transform/dft.py (DFT of several channels, axis 0) and stft.py (STFT with two or more channels and the
    one-shot functions on arrays of any number of dimensions).

    As in StftModel: real numbers, numpy's rfft and irfft are the sums of DftModel, arrays are values, hop = 0 fails.  An array of
    shape (n, channels) is the list of its n rows, a row being a function of the channel; only the channels of the array are looked
    at.  The number of columns of arrays given by the caller is an argument next to the array.  Spectra given to a multi-channel
    object have two or three axes and its number of channels: other shapes raise, here at once, in the code in part only when the
    spectrum is used. *)
From Coq Require Import List ZArith Lia Reals Bool.
From Verif Require Import Base Vec Sum Cpx DftModel StftModel.
Import ListNotations.
Local Open Scope R_scope.

Definition row := nat -> R.
Definition crow := nat -> C.
(** a[:, c] *)
Definition col (c : nat) (x : list row) : vec := map (fun r => r c) x.
Definition ccol (c : nat) (X : list crow) : list C := map (fun r => r c) X.
Definition zrows (n : nat) : list row := repeat (fun _ => 0) n.
Definition segr {A} (a len : nat) (l : list A) : list A := firstn len (skipn a l).
Definition putr {A} (a : nat) (v l : list A) : list A := firstn a l ++ v ++ skipn (a + length v) l.
(** dft.py:139-153, 222-223: the window is window[:, np.newaxis], so that row i is multiplied with w[i] *)
Definition window_rows (w : option vec) (x : list row) : option (list row) :=
  match w with
  | None => Some x
  | Some w => if Nat.eqb (length w) (length x) then Some (map2 (fun a r c => a * r c) w x)
              else if Nat.eqb (length w) 1 then Some (map (fun r c => nth 0 w 0 * r c) x) else None
  end.
(** rfft and irfft with axis=0 *)
Definition rfft0 (n : nat) (x : list row) : list crow := map (fun k c => nth k (rfft n (col c x)) C0) (seq 0 (n / 2 + 1)).
Definition irfft0 (n : nat) (X : list crow) : list row := map (fun i c => nth i (irfft n (ccol c X)) 0) (seq 0 n).
(** dft.py:199-236 and 238-279, D > 1 *)
Definition dft_analysis_m (n : nat) (wa : option vec) (x : list row) : option (list row * list crow) :=
  if (n <? 2)%nat then None else
  if negb (Nat.eqb (length x) n) then None else
  let* x := window_rows wa x in
  Some (x, rfft0 n x).
Definition dft_synthesis_m (n : nat) (ws : option vec) (X : list crow) : option (list row) :=
  if (n <? 2)%nat then None else
  if negb (Nat.eqb (length X) (n / 2 + 1)) then None else
  window_rows ws (irfft0 n X).

(** The filter: an array with one axis, or with two axes and a number of columns. *)
Inductive filt := Flat (H : list C) | Cols (w : nat) (H : list crow).
(** The attributes of an STFT object with several channels, as in StftModel.stft. *)
Record mstft := { t_ch : nat; t_N : nat; t_hop : nat; t_stream : bool; t_fixed : option nat; t_zf : nat; t_zb : nat; t_nfft : nat;
  t_wa : option vec; t_ws : option vec; t_buf : list row; t_yp : list row; t_F : nat; t_X : option (list (list crow)); t_H : option filt }.
Definition nbin_m (st : mstft) : nat := (t_nfft st / 2 + 1)%nat.
Definition with_buffers (st : mstft) (buf yp : list row) (F : nat) (X : option (list (list crow))) : mstft :=
  {| t_ch := t_ch st; t_N := t_N st; t_hop := t_hop st; t_stream := t_stream st; t_fixed := t_fixed st; t_zf := t_zf st; t_zb := t_zb st; t_nfft := t_nfft st;
    t_wa := t_wa st; t_ws := t_ws st; t_buf := buf; t_yp := yp; t_F := F; t_X := X; t_H := t_H st |}.
(** stft.py:137-226 *)
Definition make_buffers_m (st : mstft) : option mstft :=
  if (t_N st <? t_hop st)%nat then None else
  Some (with_buffers st (zrows (t_nfft st)) (zrows (t_nfft st - t_hop st)) (t_F st)
    (match t_fixed st with None => None | Some F => Some (repeat (repeat (fun _ => C0) (nbin_m st)) (if Nat.eqb F 0 then 1 else F)) end)).
(** stft.py:76-135 *)
Definition stft_new_m (ch N : nat) (hop : option nat) (wa ws : option vec) (streaming : bool) (num_frames : option nat) : option mstft :=
  make_buffers_m {| t_ch := ch; t_N := N; t_hop := match hop with Some h => h | None => N end; t_stream := streaming; t_fixed := num_frames; t_zf := 0; t_zb := 0; t_nfft := N;
    t_wa := wa; t_ws := ws; t_buf := []; t_yp := []; t_F := match num_frames with Some F => F | None => 0 end; t_X := None; t_H := None |}.
(** stft.py:228-246 *)
Definition reset_m (st : mstft) : option mstft :=
  let* X := t_X st in Some (with_buffers st (zrows (length (t_buf st))) (zrows (length (t_yp st))) (t_F st) (Some (map (map (fun _ _ => C0)) X))).
(** stft.py:248-264 and 266-282 *)
Definition zero_pad_front_m (zf : nat) (st : mstft) : option mstft :=
  make_buffers_m {| t_ch := t_ch st; t_N := t_N st; t_hop := t_hop st; t_stream := t_stream st; t_fixed := t_fixed st; t_zf := zf; t_zb := t_zb st; t_nfft := t_N st + t_zb st + zf;
    t_wa := option_map (fun w => zeros zf ++ w) (t_wa st); t_ws := option_map (fun w => zeros zf ++ w) (t_ws st);
    t_buf := t_buf st; t_yp := t_yp st; t_F := t_F st; t_X := t_X st; t_H := t_H st |}.
Definition zero_pad_back_m (zb : nat) (st : mstft) : option mstft :=
  make_buffers_m {| t_ch := t_ch st; t_N := t_N st; t_hop := t_hop st; t_stream := t_stream st; t_fixed := t_fixed st; t_zf := t_zf st; t_zb := zb; t_nfft := t_N st + zb + t_zf st;
    t_wa := option_map (fun w => w ++ zeros zb) (t_wa st); t_ws := option_map (fun w => w ++ zeros zb) (t_ws st);
    t_buf := t_buf st; t_yp := t_yp st; t_F := t_F st; t_X := t_X st; t_H := t_H st |}.
(** stft.py:284-338 *)
Inductive coeffs_m := TimeFlat (h : vec) | TimeCols (w : nat) (h : list row) | FreqFlat (H : list C) | FreqCols (w : nat) (H : list crow).
Definition with_filter (st : mstft) (H : filt) : mstft :=
  {| t_ch := t_ch st; t_N := t_N st; t_hop := t_hop st; t_stream := t_stream st; t_fixed := t_fixed st; t_zf := t_zf st; t_zb := t_zb st; t_nfft := t_nfft st;
    t_wa := t_wa st; t_ws := t_ws st; t_buf := t_buf st; t_yp := t_yp st; t_F := t_F st; t_X := t_X st; t_H := Some H |}.
Definition set_filter_m (k : coeffs_m) (zb zf : option nat) (st : mstft) : option mstft :=
  let* st := match zb with Some z => zero_pad_back_m z st | None => Some st end in
  let* st := match zf with Some z => zero_pad_front_m z st | None => Some st end in
  let time len H := if (t_nfft st + 1 <? t_N st + len)%nat then None else if Nat.eqb (t_nfft st) 0 then None else Some (with_filter st H) in
  let freq len H := if Nat.eqb len (nbin_m st) then Some (with_filter st H) else None in
  match k with
  | TimeFlat h => time (length h) (Flat (rfft (t_nfft st) h))
  | TimeCols w h => time (length h) (Cols w (rfft0 (t_nfft st) h))
  | FreqFlat H => freq (length H) (Flat H)
  | FreqCols w H => freq (length H) (Cols w H)
  end.

(** stft.py:437-490 *)
Definition stream_frame_m (st : mstft) (buf fresh : list row) : option (list row * list crow) :=
  let n_state := (t_N st - t_hop st)%nat in
  let buf := putr (t_zf st + n_state) fresh buf in
  let x_p := segr (t_zf st + t_hop st) n_state buf in
  let* r := dft_analysis_m (t_nfft st) (t_wa st) buf in let '(buf, X) := r in
  Some (putr (t_zf st) x_p buf, X).
Fixpoint stream_frames_m (st : mstft) (F : nat) (x buf : list row) : option (list row * list (list crow)) :=
  match F with
  | O => Some (buf, [])
  | S F => let* r := stream_frame_m st buf (firstn (t_hop st) x) in let '(buf, X) := r in
           let* r := stream_frames_m st F (skipn (t_hop st) x) buf in let '(buf, Xs) := r in
           Some (buf, X :: Xs)
  end.
(** stft.py:492-515: the strided view of channel c, samples along the rows, frames along the columns, between the zeros; a DFT object
    with as many channels as frames transforms it, and the transposed result is stored in X[:, :, c] *)
Definition strided (st : mstft) (x : vec) : list row :=
  zrows (t_zf st) ++ map (fun i k => nth (i + k * t_hop st) x 0) (seq 0 (t_N st)) ++ zrows (t_zb st).
Definition channel_frames (st : mstft) (F : nat) (x : vec) : option (list (list C)) :=
  let y := strided st x in
  if Nat.eqb F 1 then let* r := dft_analysis (t_nfft st) (t_wa st) (col 0 y) in Some [snd r]
  else let* r := dft_analysis_m (t_nfft st) (t_wa st) y in Some (map (fun k => ccol k (snd r)) (seq 0 F)).
Definition strided_frames_m (st : mstft) (F : nat) (x : list row) : option (list (list crow)) :=
  let* X := mapM (fun c => channel_frames st F (col c x)) (seq 0 (t_ch st)) in
  Some (map (fun f => map (fun k c => nth k (nth f (nth c X []) []) C0) (seq 0 (nbin_m st))) (seq 0 F)).
(** stft.py:340-435; [w]: x.shape[1] *)
Definition analysis_m (st : mstft) (w : nat) (x : list row) : option (mstft * list (list crow)) :=
  let hop := t_hop st in
  if negb (Nat.eqb w (t_ch st)) then None else
  if Nat.eqb hop 0 then None else
  if t_stream st then
    let* r := match t_fixed st with
      | Some F => if Nat.eqb (length x) (F * hop) then Some (F, x) else None
      | None => let F := ((length x + hop - 1) / hop)%nat in Some (F, x ++ zrows (F * hop - length x))
      end in let '(F, x) := r in
    let* r := stream_frames_m st F x (t_buf st) in let '(buf, Xs) := r in
    let X := match t_fixed st, F with Some _, O => t_X st | _, _ => Some Xs end in
    let* X' := X in
    Some (with_buffers st buf (t_yp st) F X, X')
  else
    let* r := match t_fixed st with
      | Some O => None
      | Some F => if Nat.eqb (length x) (hop * (F - 1) + t_N st) then Some (F, x) else None
      | None => if (length x <? t_N st)%nat then Some (1%nat, x ++ zrows (t_N st - length x))
                else let F := ((length x - t_N st + hop - 1) / hop + 1)%nat in Some (F, x ++ zrows ((F - 1) * hop + t_N st - length x))
      end in let '(F, x) := r in
    let* Xs := strided_frames_m st F x in
    Some (with_buffers st (zrows (length (t_buf st))) (zrows (length (t_yp st))) F (Some Xs), Xs).

(** Spectra: shape (bins, w) or (frames, bins, w). *)
Inductive xin_m := Two (w : nat) (X : list crow) | Three (w : nat) (Xs : list (list crow)).
(** stft.py:539-590 *)
Definition check_input_m (st : mstft) (X : xin_m) : option mstft :=
  let* r := match X with
    | Two w X => if Nat.eqb w (t_ch st) && Nat.eqb (length X) (nbin_m st) then Some (1%nat, [X]) else None
    | Three w Xs => let F := length Xs in
        if negb (Nat.eqb w (t_ch st)) then None else
        if Nat.eqb F 1 then (if Nat.eqb 1 (nbin_m st) then Some (1%nat, Xs) else None)
        else if forallb (fun X => Nat.eqb (length X) (nbin_m st)) Xs then Some (F, Xs) else None
    end in let '(F, Xs) := r in
  match t_fixed st with
  | Some F0 => if Nat.eqb F F0 then Some (with_buffers st (t_buf st) (t_yp st) (t_F st) (Some Xs)) else None
  | None => Some (with_buffers st (t_buf st) (t_yp st) F (Some Xs))
  end.
(** stft.py:592-640, one frame: the array of the filter is broadcast against (bins, channels).  With one axis it runs along the
    channels; np.tile(H, (num_frames, 1, 1)) does not change that.  More than one bin: see [dft_analysis_m]. *)
Definition multiply_m (ch : nat) (X : list crow) (H : filt) : option (list crow) :=
  match H with
  | Flat H => if Nat.eqb (length H) ch then Some (map (fun r c => Cmul (r c) (nth c H C0)) X) else None
  | Cols w H => if Nat.eqb (length X) (length H) then
      if Nat.eqb w ch then Some (map2 (fun r h c => Cmul (r c) (h c)) X H)
      else if Nat.eqb w 1 then Some (map2 (fun r h c => Cmul (r c) (h 0%nat)) X H) else None
      else None
  end.
Definition process_m (st : mstft) (X : option xin_m) : option (mstft * option (list (list crow)) * option xin_m) :=
  match t_H st with
  | None => Some (st, None, X)
  | Some H =>
    let* st := match X with Some X => check_input_m st X | None => Some st end in
    match t_F st with
    | O => Some (st, t_X st, X)
    | _ => let* Xs := t_X st in
           let* Ys := mapM (fun X => multiply_m (t_ch st) X H) Xs in
           let caller := match X, t_fixed st with
             | Some (Two w _), None => Some (Two w (nth 0 Ys []))
             | Some (Three w _), None => Some (Three w Ys)
             | _, _ => X end in
           Some (with_buffers st (t_buf st) (t_yp st) (t_F st) (Some Ys), Some Ys, caller)
    end
  end.
(** stft.py:714-729 *)
Definition radd (a b : row) : row := fun c => a c + b c.
Definition overlap_and_add_m (hop n_state_out : nat) (yp x : list row) : list row * list row :=
  let out := firstn hop x in
  if Nat.eqb n_state_out 0 then (out, yp) else
  let m := Nat.min hop n_state_out in
  let out := map2 radd (firstn m out) (firstn m yp) ++ skipn m out in
  let yp := skipn hop yp ++ zrows (Nat.min hop n_state_out) in
  (out, map2 radd yp (skipn (length x - n_state_out) x)).
Fixpoint synth_frames_m (st : mstft) (Xs : list (list crow)) (yp : list row) : option (list row * list row) :=
  match Xs with
  | [] => Some ([], yp)
  | X :: Xs => let* x := dft_synthesis_m (t_nfft st) (t_ws st) X in
      let '(out, yp) := overlap_and_add_m (t_hop st) (t_nfft st - t_hop st) yp x in
      let* r := synth_frames_m st Xs yp in let '(outs, yp) := r in
      Some (out ++ outs, yp)
  end.
(** stft.py:642-712 *)
Definition synthesis_m (st : mstft) (X : option xin_m) : option (mstft * option (list row)) :=
  let* st := match X with Some X => check_input_m st X | None => Some st end in
  match t_F st with
  | O => Some (st, None)
  | F => let* Xs := match t_X st with
           | Some Xs => Some Xs
           | None => if Nat.eqb F 1 then Some [repeat (fun _ => C0) (nbin_m st)] else None
           end in
         let* r := synth_frames_m st Xs (t_yp st) in let '(out, yp) := r in
         Some (with_buffers st (t_buf st) yp F (t_X st), Some out)
  end.

(** stft.py:738-785 and 788-836, arrays with one or two, and one to three, axes; [w]: the size of the last axis.  One channel makes a
    mono object (stft.py:86-89), which rejects a second axis in analysis (345-349) and a third one in synthesis (563). *)
Inductive signal := S1 (x : vec) | S2 (w : nat) (x : list row).
Inductive spectrum := X1 (X : list C) | X2 (w : nat) (X : list crow) | X3 (w : nat) (X : list (list crow)).
Definition stft_setup_m (ch N hop : nat) (wa ws : option vec) (zb zf : nat) : option mstft :=
  let* st := stft_new_m ch N (Some hop) wa ws true None in
  let* st := if (0 <? zb)%nat then zero_pad_back_m zb st else Some st in
  if (0 <? zf)%nat then zero_pad_front_m zf st else Some st.
(** the frames, without the axis of the frames when there is one frame (np.squeeze, 417) *)
Definition squeeze_frames (ch : nat) (Xs : list (list crow)) : spectrum := match Xs with [X] => X2 ch X | _ => X3 ch Xs end.
Definition analysis_any (x : signal) (L hop : nat) (win : option vec) (zb zf : nat) : option spectrum :=
  match x with
  | S1 x => let* Xs := one_shot_analysis x L hop win zb zf in
            Some (match Xs with [X] => X1 X | _ => X2 ((L + zb + zf) / 2 + 1) (map (fun X k => nth k X C0) Xs) end)
  | S2 w x => if Nat.eqb w 1 then None else
      let* st := stft_setup_m w L hop win None zb zf in
      let* r := analysis_m st w x in Some (squeeze_frames w (snd r))
  end.
Definition synthesis_any (X : spectrum) (L hop : nat) (win : option vec) (zb zf : nat) : option (option signal) :=
  match X with
  | X1 X => let* r := one_shot_synthesis (One X) L hop win zb zf in Some (option_map S1 r)
  | X2 w X => let* r := one_shot_synthesis (Many (map (fun r => map r (seq 0 w)) X)) L hop win zb zf in Some (option_map S1 r)
  | X3 w X => if Nat.eqb w 1 then None else
      let* st := stft_setup_m w L hop None win zb zf in
      let* r := synthesis_m st (Some (Three w X)) in Some (option_map (S2 w) (snd r))
  end.
