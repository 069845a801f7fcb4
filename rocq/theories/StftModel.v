(** /repo/pyroomacoustics/transform/dft.py (DFT, numpy transform, one channel) and stft.py (STFT
    with one channel, one-shot functions, compute_synthesis_window).
    Real numbers instead of floats; numpy's rfft/irfft are the sums of DftModel.  Several
    channels: StftMultiModel.  Arrays are values: that returned arrays are views of internal buffers is not
    modelled, except that the caller's array is returned where the code writes to it. *)
From Coq Require Import List ZArith Lia Reals Bool.
From Verif Require Import Base Vec Sum Cpx DftModel.
Import ListNotations.
Local Open Scope R_scope.

Definition zeros (n : nat) : vec := repeat 0 n.
Definition seg (a len : nat) (l : vec) : vec := firstn len (skipn a l).
(** l[a:a+len(v)] = v *)
Definition put (a : nat) (v l : vec) : vec := firstn a l ++ v ++ skipn (a + length v) l.
(** np.multiply(w, x, x): same length, or w of length 1; [None]: ValueError *)
Definition times_window (w : option vec) (x : vec) : option vec :=
  match w with
  | None => Some x
  | Some w => if Nat.eqb (length w) (length x) then Some (map2 Rmult w x)
              else if Nat.eqb (length w) 1 then Some (map (Rmult (nth 0 w 0)) x) else None
  end.

(** dft.py:199-236.  Returns the caller's array after the call and the spectrum.  np.squeeze in
    the constructor (127-137) leaves no axis when nfft = 1, and nothing works then. *)
Definition dft_analysis (n : nat) (wa : option vec) (x : vec) : option (vec * list C) :=
  if (n <? 2)%nat then None else
  if negb (Nat.eqb (length x) n) then None else
  let* x := times_window wa x in
  Some (x, rfft n x).
(** dft.py:238-279 *)
Definition dft_synthesis (n : nat) (ws : option vec) (X : list C) : option vec :=
  if (n <? 2)%nat then None else
  if negb (Nat.eqb (length X) (n / 2 + 1)) then None else
  times_window ws (irfft n X).

(** The attributes of an STFT object.  [s_X]: the frames of the last analysis (None: attribute is
    None); [s_F]: num_frames; [s_fixed]: num_frames given at construction. *)
Record stft := { s_N : nat; s_hop : nat; s_stream : bool; s_fixed : option nat; s_zf : nat; s_zb : nat; s_nfft : nat;
  s_wa : option vec; s_ws : option vec; s_buf : vec; s_yp : vec; s_F : nat; s_X : option (list (list C)); s_H : option (list C) }.
Definition nbin (st : stft) : nat := (s_nfft st / 2 + 1)%nat.
(** stft.py:137-226; [None]: negative dimensions *)
Definition make_buffers (st : stft) : option stft :=
  if (s_N st <? s_hop st)%nat then None else
  Some {| s_N := s_N st; s_hop := s_hop st; s_stream := s_stream st; s_fixed := s_fixed st; s_zf := s_zf st; s_zb := s_zb st; s_nfft := s_nfft st;
    s_wa := s_wa st; s_ws := s_ws st; s_buf := zeros (s_nfft st); s_yp := zeros (s_nfft st - s_hop st); s_F := s_F st;
    s_X := match s_fixed st with None => None | Some F => Some (repeat (repeat C0 (nbin st)) (if Nat.eqb F 0 then 1 else F)) end; s_H := s_H st |}.
(** stft.py:76-135 *)
Definition stft_new (N : nat) (hop : option nat) (wa ws : option vec) (streaming : bool) (num_frames : option nat) : option stft :=
  make_buffers {| s_N := N; s_hop := match hop with Some h => h | None => N end; s_stream := streaming; s_fixed := num_frames; s_zf := 0; s_zb := 0; s_nfft := N;
    s_wa := wa; s_ws := ws; s_buf := []; s_yp := []; s_F := match num_frames with Some F => F | None => 0 end; s_X := None; s_H := None |}.
(** stft.py:228-246; [None]: self.X is None *)
Definition reset (st : stft) : option stft :=
  let* X := s_X st in
  Some {| s_N := s_N st; s_hop := s_hop st; s_stream := s_stream st; s_fixed := s_fixed st; s_zf := s_zf st; s_zb := s_zb st; s_nfft := s_nfft st;
    s_wa := s_wa st; s_ws := s_ws st; s_buf := zeros (length (s_buf st)); s_yp := zeros (length (s_yp st)); s_F := s_F st;
    s_X := Some (map (map (fun _ => C0)) X); s_H := s_H st |}.
(** stft.py:248-264 and 266-282 *)
Definition zero_pad_front (zf : nat) (st : stft) : option stft :=
  make_buffers {| s_N := s_N st; s_hop := s_hop st; s_stream := s_stream st; s_fixed := s_fixed st; s_zf := zf; s_zb := s_zb st; s_nfft := s_N st + s_zb st + zf;
    s_wa := option_map (fun w => zeros zf ++ w) (s_wa st); s_ws := option_map (fun w => zeros zf ++ w) (s_ws st);
    s_buf := s_buf st; s_yp := s_yp st; s_F := s_F st; s_X := s_X st; s_H := s_H st |}.
Definition zero_pad_back (zb : nat) (st : stft) : option stft :=
  make_buffers {| s_N := s_N st; s_hop := s_hop st; s_stream := s_stream st; s_fixed := s_fixed st; s_zf := s_zf st; s_zb := zb; s_nfft := s_N st + zb + s_zf st;
    s_wa := option_map (fun w => w ++ zeros zb) (s_wa st); s_ws := option_map (fun w => w ++ zeros zb) (s_ws st);
    s_buf := s_buf st; s_yp := s_yp st; s_F := s_F st; s_X := s_X st; s_H := s_H st |}.
(** stft.py:284-338.  [Time h]: coefficients in the time domain; [Freq H]: freq=True. *)
Inductive coeffs := Time (h : vec) | Freq (H : list C).
Definition with_H (st : stft) (H : list C) : stft :=
  {| s_N := s_N st; s_hop := s_hop st; s_stream := s_stream st; s_fixed := s_fixed st; s_zf := s_zf st; s_zb := s_zb st; s_nfft := s_nfft st;
    s_wa := s_wa st; s_ws := s_ws st; s_buf := s_buf st; s_yp := s_yp st; s_F := s_F st; s_X := s_X st; s_H := Some H |}.
Definition set_filter (c : coeffs) (zb zf : option nat) (st : stft) : option stft :=
  let* st := match zb with Some k => zero_pad_back k st | None => Some st end in
  let* st := match zf with Some k => zero_pad_front k st | None => Some st end in
  match c with
  | Time h => if (s_nfft st + 1 <? s_N st + length h)%nat then None else if Nat.eqb (s_nfft st) 0 then None else Some (with_H st (rfft (s_nfft st) h))
  | Freq H => if Nat.eqb (length H) (nbin st) then Some (with_H st H) else None
  end.

(** stft.py:437-490, one frame: [hop] new samples *)
Definition stream_frame (st : stft) (buf fresh : vec) : option (vec * list C) :=
  let n_state := (s_N st - s_hop st)%nat in
  let buf := put (s_zf st + n_state) fresh buf in
  let x_p := seg (s_zf st + s_hop st) n_state buf in
  let* r := dft_analysis (s_nfft st) (s_wa st) buf in let '(buf, X) := r in
  Some (put (s_zf st) x_p buf, X).
Fixpoint stream_frames (st : stft) (F : nat) (x buf : vec) : option (vec * list (list C)) :=
  match F with
  | O => Some (buf, [])
  | S F => let* r := stream_frame st buf (firstn (s_hop st) x) in let '(buf, X) := r in
           let* r := stream_frames st F (skipn (s_hop st) x) buf in let '(buf, Xs) := r in
           Some (buf, X :: Xs)
  end.
(** stft.py:492-537 *)
Definition strided_frames (st : stft) (F : nat) (x : vec) : option (list (list C)) :=
  mapM (fun k => let* r := dft_analysis (s_nfft st) (s_wa st) (zeros (s_zf st) ++ seg (k * s_hop st) (s_N st) x ++ zeros (s_zb st)) in Some (snd r)) (seq 0 F).
Definition with_analysis (st : stft) (buf yp : vec) (F : nat) (X : option (list (list C))) : stft :=
  {| s_N := s_N st; s_hop := s_hop st; s_stream := s_stream st; s_fixed := s_fixed st; s_zf := s_zf st; s_zb := s_zb st; s_nfft := s_nfft st;
    s_wa := s_wa st; s_ws := s_ws st; s_buf := buf; s_yp := yp; s_F := F; s_X := X; s_H := s_H st |}.
(** stft.py:340-435.  [None]: wrong number of samples, division by hop = 0, a window of the
    wrong length. *)
Definition analysis (st : stft) (x : vec) : option (stft * list (list C)) :=
  let hop := s_hop st in
  if Nat.eqb hop 0 then None else
  if s_stream st then
    let* r := match s_fixed st with
      | Some F => if Nat.eqb (length x) (F * hop) then Some (F, x) else None
      | None => let F := ((length x + hop - 1) / hop)%nat in Some (F, x ++ zeros (F * hop - length x))
      end in let '(F, x) := r in
    let* r := stream_frames st F x (s_buf st) in let '(buf, Xs) := r in
    let X := match s_fixed st, F with Some _, O => s_X st | _, _ => Some Xs end in
    let* X' := X in
    Some (with_analysis st buf (s_yp st) F X, X')
  else
    let* r := match s_fixed st with
      | Some O => None  (* self.dft_frames does not exist *)
      | Some F => if Nat.eqb (length x) (hop * (F - 1) + s_N st) then Some (F, x) else None
      | None => if (length x <? s_N st)%nat then Some (1%nat, x ++ zeros (s_N st - length x))
                else let F := ((length x - s_N st + hop - 1) / hop + 1)%nat in Some (F, x ++ zeros ((F - 1) * hop + s_N st - length x))
      end in let '(F, x) := r in
    let* Xs := strided_frames st F x in
    Some (with_analysis st (zeros (length (s_buf st))) (zeros (length (s_yp st))) F (Some Xs), Xs).

(** A spectrum argument: one frame, or an array of frames (first axis). *)
Inductive xin := One (X : list C) | Many (Xs : list (list C)).
(** stft.py:539-590 *)
Definition check_input (st : stft) (X : xin) : option stft :=
  let* r := match X with
    | One X => if Nat.eqb (length X) (nbin st) then Some (1%nat, [X]) else None
    | Many Xs => let F := length Xs in
        if Nat.eqb F 1 then (if Nat.eqb 1 (nbin st) then Some (1%nat, Xs) else None)
        else if forallb (fun X => Nat.eqb (length X) (nbin st)) Xs then Some (F, Xs) else None
    end in let '(F, Xs) := r in
  match s_fixed st with
  | Some F0 => if Nat.eqb F F0 then Some (with_analysis st (s_buf st) (s_yp st) (s_F st) (Some Xs)) else None
  | None => Some (with_analysis st (s_buf st) (s_yp st) F (Some Xs))
  end.
(** stft.py:592-640.  Returns the new state, the result (None: Python's None), and the caller's
    array after the call. *)
Definition multiply (X H : list C) : option (list C) :=
  if Nat.eqb (length X) (length H) then Some (map2 Cmul X H) else None.
Definition process (st : stft) (X : option xin) : option (stft * option (list (list C)) * option xin) :=
  match s_H st with
  | None => Some (st, None, X)
  | Some H =>
    let* st := match X with Some X => check_input st X | None => Some st end in
    match s_F st with
    | O => Some (st, s_X st, X)
    | _ => let* Xs := s_X st in
           let* Ys := mapM (fun X => multiply X H) Xs in
           let caller := match X, s_fixed st with
             | Some (One _), None => Some (One (nth 0 Ys []))
             | Some (Many _), None => Some (Many Ys)
             | _, _ => X end in
           Some (with_analysis st (s_buf st) (s_yp st) (s_F st) (Some Ys), Some Ys, caller)
    end
  end.

(** stft.py:714-729: (output, new y_p) *)
Definition overlap_and_add (hop n_state_out : nat) (yp x : vec) : vec * vec :=
  let out := firstn hop x in
  if Nat.eqb n_state_out 0 then (out, yp) else
  let m := Nat.min hop n_state_out in
  let out := map2 Rplus (firstn m out) (firstn m yp) ++ skipn m out in
  let yp := skipn hop yp ++ zeros (Nat.min hop n_state_out) in
  (out, map2 Rplus yp (skipn (length x - n_state_out) x)).
Fixpoint synth_frames (st : stft) (Xs : list (list C)) (yp : vec) : option (vec * vec) :=
  match Xs with
  | [] => Some ([], yp)
  | X :: Xs => let* x := dft_synthesis (s_nfft st) (s_ws st) X in
      let '(out, yp) := overlap_and_add (s_hop st) (s_nfft st - s_hop st) yp x in
      let* r := synth_frames st Xs yp in let '(outs, yp) := r in
      Some (out ++ outs, yp)
  end.
(** stft.py:642-712; result None: no frames, Python's None *)
Definition synthesis (st : stft) (X : option xin) : option (stft * option vec) :=
  let* st := match X with Some X => check_input st X | None => Some st end in
  match s_F st with
  | O => Some (st, None)
  | F => let* Xs := match s_X st with
           | Some Xs => Some Xs
           | None => if Nat.eqb F 1 then Some [repeat C0 (nbin st)] else None  (* DFT.synthesis(None) uses its own spectrum *)
           end in
         let* r := synth_frames st Xs (s_yp st) in let '(out, yp) := r in
         Some (with_analysis st (s_buf st) yp F (s_X st), Some out)
  end.

(** stft.py:738-785 and 788-836: one-shot functions *)
Definition stft_setup (N hop : nat) (wa ws : option vec) (streaming : bool) (num_frames : option nat) (zb zf : nat) : option stft :=
  let* st := stft_new N (Some hop) wa ws streaming num_frames in
  let* st := if (0 <? zb)%nat then zero_pad_back zb st else Some st in
  if (0 <? zf)%nat then zero_pad_front zf st else Some st.
Definition one_shot_analysis (x : vec) (L hop : nat) (win : option vec) (zb zf : nat) : option (list (list C)) :=
  let* st := stft_setup L hop win None true None zb zf in
  let* r := analysis st x in let '(_, X) := r in Some X.
Definition one_shot_synthesis (X : xin) (L hop : nat) (win : option vec) (zb zf : nat) : option (option vec) :=
  let* st := stft_setup L hop None win true None zb zf in
  let* r := synthesis st (Some X) in let '(_, x) := r in Some x.

(** stft.py:839-879.  [None]: the loop over the shifts does not end (hop = 0), or 0/0. *)
Fixpoint farthest (fuel : nat) (hop L n : Z) : option Z :=
  match fuel with
  | O => None
  | S fuel => if (- L <? n - hop)%Z then farthest fuel hop L (n - hop) else Some n
  end.
Fixpoint add_shifts (fuel : nat) (hop n : Z) (wa norm : vec) : option vec :=
  let L := Z.of_nat (length wa) in
  match fuel with
  | O => None
  | S fuel =>
    if (n <? L)%Z then
      let sq := map (fun w => w * w) wa in
      let norm :=
        if (n =? 0)%Z then map2 Rplus norm sq
        else if (n <? 0)%Z then  (* norm[: n + L] += wa[-n - L :] ** 2 *)
          map2 Rplus (firstn (Z.to_nat (n + L)) norm) (skipn (Z.to_nat (- n)) sq) ++ skipn (Z.to_nat (n + L)) norm
        else  (* norm[n:] += wa[:-n] ** 2 *)
          firstn (Z.to_nat n) norm ++ map2 Rplus (skipn (Z.to_nat n) norm) (firstn (length sq - Z.to_nat n) sq) in
      add_shifts fuel hop (n + hop) wa norm
    else Some norm
  end.
Definition compute_synthesis_window (wa : vec) (hop : nat) : option vec :=
  let L := length wa in
  let* n := farthest (L + 1) (Z.of_nat hop) (Z.of_nat L) 0 in
  let* norm := add_shifts (2 * L + 1) (Z.of_nat hop) n wa (zeros L) in
  if forallb (fun q => if Req_EM_T q 0 then false else true) norm then Some (map2 Rdiv wa norm) else None.

(** Clients: successive calls of one method, and blocks sent through analysis, process and
    synthesis. *)
Fixpoint feed (st : stft) (blocks : list vec) : option (stft * list (list C)) :=
  match blocks with
  | [] => Some (st, [])
  | b :: bs => let* r := analysis st b in
               let* r' := feed (fst r) bs in Some (fst r', snd r ++ snd r')
  end.
Fixpoint speak (st : stft) (calls : list xin) : option (stft * vec) :=
  match calls with
  | [] => Some (st, [])
  | X :: Xs => let* r := synthesis st (Some X) in
               let* r' := speak (fst r) Xs in Some (fst r', match snd r with Some x => x | None => [] end ++ snd r')
  end.
Fixpoint chain (st : stft) (blocks : list vec) : option (stft * vec) :=
  match blocks with
  | [] => Some (st, [])
  | b :: bs => let* r := analysis st b in
               let* p := process (fst r) None in
               let* q := synthesis (fst (fst p)) None in
               let* r' := chain (fst q) bs in Some (fst r', match snd q with Some x => x | None => [] end ++ snd r')
  end.
(** Calls that change the configuration. *)
Inductive setting := Front (z : nat) | Back (z : nat) | Reset | Filter (c : coeffs) (zb zf : option nat).
Definition apply_setting (st : stft) (o : setting) : option stft :=
  match o with Front z => zero_pad_front z st | Back z => zero_pad_back z st | Reset => reset st | Filter c zb zf => set_filter c zb zf st end.
Definition apply_settings (st : stft) (os : list setting) : option stft := foldM apply_setting os st.
