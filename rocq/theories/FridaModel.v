(** FRIDA, the direction finder by finite rate of innovation, in the plane.
    /repo/pyroomacoustics/doa/frida.py: _process 130-190 (planar arrays, visibilities), _visibilities 206-230 (without
    low rank cleaning).
    /repo/pyroomacoustics/doa/tools_fri_doa_plane.py: cov_mtx_est 31-52, extract_off_diag 55-70, mtx_freq2visi 142-169,
    mtx_fri2signal_ri 225-251, cpx_mtx2real 254-265, hermitian_expan 268-283, output_shrink 286-314, coef_expan_mtx
    317-334, Tmtx_ri 337-357, Tmtx_ri_half_out_half 365-371, Rmtx_ri 374-387, Rmtx_ri_half_out_half 395-401,
    build_mtx_amp 404-426, dirac_recon_ri_half_multiband_lu 835-959, lu_compute_mtx_obj_initial 1099-1123,
    compute_obj_val 1154-1182, compute_b 1185-1249 (use_lu), make_G 1663-1707, make_GtG_and_inv 1710-1721, the azimuths
    of pt_src_recon_multiband 1724-1906 (update_G = False).

    A vector is a function of the index and a matrix a function of row and column; the dimensions are arguments, entries
    outside have no meaning.  [None]: an exception, or NaN.
    Oracles: the Bessel functions of the first kind, linalg.solve, linalg.inv, np.roots.
    Not modelled: the azimuths from raw microphone signals, the other (unused) reconstruction routines of the file,
    plots.  The average of raw signals, low rank cleaning and the dirty image are in FridaImgModel; the amplitudes
    (non-negative least squares) and the update of the mapping (G_iter > 1) in FridaAmpModel; the amplitudes of raw
    signals in FridaRawModel. *)
From Coq Require Import List ZArith Lia Reals Lra Bool.
From Verif Require Import Base Sum Cpx SphereModel.
Import ListNotations.
Local Open Scope R_scope.

Definition mat : Type := nat -> nat -> R.
Definition vect : Type := nat -> R.

(** ** Visibilities *)
(** cov_mtx_est 31-52 on the chosen frames; [None]: no frame is chosen and the mean is NaN *)
Definition cov_mtx_est (frames : list nat) (y : nat -> nat -> C) : option (nat -> nat -> C) :=
  if Nat.eqb (length frames) 0 then None
  else Some (fun qp q => Cscal (/ INR (length frames)) (fold_right Cadd C0 (map (fun t => Cmul (Conj (y qp t)) (y q t)) frames))).

(** the pairs (q, qp) of different microphones, in the order of extract_off_diag 55-70 (columns first) and of
    np.extract 419-425 (rows first): column q of the covariance is row q of the baselines *)
Definition pairs (n_mics : nat) : list (nat * nat) :=
  flat_map (fun q => map (fun qp => (q, qp)) (filter (fun qp => negb (Nat.eqb qp q)) (seq 0 n_mics))) (seq 0 n_mics).
Definition extract_off_diag (n_mics : nat) (m : nat -> nat -> C) : list C := map (fun p => m (snd p) (fst p)) (pairs n_mics).

(** the energy of a frame, np.var 211: variance over the microphones *)
Definition frame_mean (n_mics : nat) (x : nat -> nat -> C) (t : nat) : C := Cscal (/ INR n_mics) (csum n_mics (fun m => x m t)).
Definition energy (n_mics : nat) (x : nat -> nat -> C) (t : nat) : R :=
  / INR n_mics * bsum n_mics (fun m => Cabs2 (Csub (x m t) (frame_mean n_mics x t))).
Definition chosen_frames (n_mics n_frames : nat) (margin floor : R) (x : nat -> nat -> C) : list nat :=
  filter (fun t => if Rlt_dec (margin * floor) (energy n_mics x t) then true else false) (seq 0 n_frames).
(** _visibilities 206-230, one band *)
Definition visibilities (n_mics n_frames : nat) (margin floor : R) (x : nat -> nat -> C) : option (list C) :=
  let* cov := cov_mtx_est (chosen_frames n_mics n_frames margin floor x) x in Some (extract_off_diag n_mics cov).

(** baselines 416-425, also 155-163 *)
Definition baseline (px : vect) (p : nat * nat) : R := px (fst p) - px (snd p).
(** build_mtx_amp 404-426, row of a pair, column of an azimuth *)
Definition build_mtx_amp (phi : R) (px py : vect) (p : nat * nat) : C :=
  cis (- (cos phi * baseline px p + sin phi * baseline py p)).

(** ** The mapping from Fourier coefficients to visibilities *)
(** mtx_freq2visi 142-169: row of a pair, column of the coefficient m - M *)
Definition mtx_freq2visi (jv : Z -> R -> R) (M : nat) (px py : vect) (p : nat * nat) (col : nat) : C :=
  let bx := baseline px p in let by_ := baseline py p in
  let m := (Z.of_nat col - Z.of_nat M)%Z in
  Cmul (Cmul (cis (- (IZR m * (PI / 2)))) (RtoC (jv m (sqrt (bx * bx + by_ * by_))))) (cis (IZR m * atan2 by_ bx)).

(** ** Matrices *)
Definition eye : mat := fun i j => if Nat.eqb i j then 1 else 0.
Definition zeros : mat := fun _ _ => 0.
(** [vstack r a b]: a has r rows; [hstack c a b]: a has c columns; [block_diag r c a b]: a is r x c *)
Definition vstack (r : nat) (a b : mat) : mat := fun i j => if Nat.ltb i r then a i j else b (i - r)%nat j.
Definition hstack (c : nat) (a b : mat) : mat := fun i j => if Nat.ltb j c then a i j else b i (j - c)%nat.
Definition block_diag (r c : nat) (a b : mat) : mat := vstack r (hstack c a zeros) (hstack c zeros b).
Definition neg (a : mat) : mat := fun i j => - a i j.
Definition transpose (a : mat) : mat := fun i j => a j i.
(** np.dot(a, b), a with n columns *)
Definition mm (n : nat) (a b : mat) : mat := fun i j => bsum n (fun k => a i k * b k j).
Definition col (v : vect) : mat := fun i _ => v i.
(** scipy.linalg.toeplitz(c, r): first column c, first row r but for its first entry *)
Definition toeplitz (c r : vect) : mat := fun i j => if Nat.leb j i then c (i - j)%nat else r (j - i)%nat.

(** cpx_mtx2real 254-265 of an r x c matrix *)
Definition cpx_mtx2real (r c : nat) (a : nat -> nat -> C) : mat :=
  let re := fun i j => fst (a i j) in let im := fun i j => snd (a i j) in
  vstack r (hstack c re (neg im)) (hstack c im re).

(** hermitian_expan 268-283: D1 is (2 h - 1) x h, D2 is (2 h - 1) x (h - 1) *)
Definition flip_from1 (h : nat) : mat := fun i j => eye (1 + i)%nat (h - 1 - j)%nat.
Definition hermitian_expan (h : nat) : mat * mat := (vstack h eye (flip_from1 h), vstack h eye (neg (flip_from1 h))).
(** coef_expan_mtx 317-334: D1 is (K + 1) x (K / 2 + 1), D2 is (K + 1) x ((K + 1) / 2) *)
Definition flip (h : nat) : mat := fun i j => eye i (h - 1 - j)%nat.
Definition coef_expan_mtx (K : nat) : mat * mat :=
  if Nat.even K then let h := (K / 2 + 1)%nat in (vstack h eye (flip_from1 h), vstack h eye (neg (flip_from1 h)))
  else let h := ((K + 1) / 2)%nat in (vstack h eye (flip h), vstack h eye (neg (flip h))).
(** output_shrink 286-314: (L - K) x 2 (L - K) *)
Definition output_shrink (K L : nat) : mat :=
  let out := (L - K)%nat in
  if Nat.even out then let h := (out / 2)%nat in block_diag h (h + h) (hstack h eye zeros) (hstack h eye zeros)
  else let h := ((out + 1) / 2)%nat in block_diag h (h + (h - 1)) (hstack h eye zeros) (hstack (h - 1) eye zeros).

(** mtx_fri2signal_ri 225-251: two rows (real, imaginary) for each pair, 2 M + 1 columns *)
Definition mtx_fri2signal_ri (jv : Z -> R -> R) (M n_mics : nat) (px py : vect) : mat :=
  let L := (2 * M + 1)%nat in
  let '(D1, D2) := hermitian_expan (M + 1) in
  mm (L + L) (cpx_mtx2real (length (pairs n_mics)) L (fun i j => mtx_freq2visi jv M px py (nth i (pairs n_mics) (0, 0)%nat) j))
     (block_diag L (M + 1) D1 D2).
(** make_G 1663-1707, band of angular frequency omega *)
Definition make_G (jv : Z -> R -> R) (M n_mics : nat) (px py : vect) (omega sound_speed : R) : mat :=
  let norm_factor := sound_speed / omega in
  mtx_fri2signal_ri jv M n_mics (fun m => px m / norm_factor) (fun m => py m / norm_factor).

(** _process 155-166: the mappings are made at the first call and kept in self.G *)
Definition process_G (jv : Z -> R -> R) (M n_mics : nat) (px py : vect) (sound_speed : R) (cache : option (list mat)) (omegas : list R) : list mat :=
  match cache with Some G => G | None => map (fun w => make_G jv M n_mics px py w sound_speed) omegas end.

Section Recon.
Variables K M : nat.
Let L := (2 * M + 1)%nat.
Let out := (L - K)%nat.
Definition D : mat := let '(D1, D2) := hermitian_expan (M + 1) in block_diag L (M + 1) D1 D2.
Definition D_coef : mat := let '(D1, D2) := coef_expan_mtx K in block_diag (K + 1) (K / 2 + 1) D1 D2.

(** Tmtx_ri 337-357: 2 (L - K) rows, 2 (K + 1) columns *)
Definition Tmtx_ri (b_ri : vect) : mat :=
  let b := mv L D b_ri in
  let b_r := b in let b_i := fun i => b (L + i)%nat in
  let T := fun v : vect => toeplitz (fun i => v (K + i)%nat) (fun i => v (K - i)%nat) in
  vstack out (hstack (K + 1) (T b_r) (neg (T b_i))) (hstack (K + 1) (T b_i) (T b_r)).
(** Tmtx_ri_half_out_half 365-371: L - K rows, K + 1 columns *)
Definition Tmtx (b_ri : vect) : mat := mm (2 * (K + 1)) (mm (2 * out) (output_shrink K L) (Tmtx_ri b_ri)) D_coef.

(** Rmtx_ri 374-387: 2 (L - K) rows, L columns *)
Definition Rmtx_ri (coef_ri : vect) : mat :=
  let c_r := coef_ri in let c_i := fun i => coef_ri (K + 1 + i)%nat in
  let first_col := fun (v : vect) i => if Nat.eqb i 0 then v K else 0 in
  let first_row := fun (v : vect) i => if Nat.leb i K then v (K - i)%nat else 0 in
  let T := fun v : vect => toeplitz (first_col v) (first_row v) in
  mm (2 * L) (vstack out (hstack L (T c_r) (neg (T c_i))) (hstack L (T c_i) (T c_r))) D.
(** Rmtx_ri_half_out_half 395-401: L - K rows, L columns *)
Definition Rmtx (coef_half : vect) : mat := mm (2 * out) (output_shrink K L) (Rmtx_ri (mv (K + 1) D_coef coef_half)).

(** linalg.solve(a, b), b with m columns; linalg.inv: oracles *)
Variable solve : nat -> nat -> mat -> mat -> option mat.
Variable inv : nat -> mat -> option mat.

(** make_GtG_and_inv 1710-1721, one band; G has na rows *)
Definition GtG (na : nat) (G : mat) : mat := mm na (transpose G) G.
Definition GtG_inv (na : nat) (G : mat) : option mat := inv L (GtG na G).

(** one band: (G, inverse of GtG, measurements) *)
Definition band : Type := (mat * mat * vect)%type.
Definition b_G (d : band) : mat := fst (fst d).
Definition b_inv (d : band) : mat := snd (fst d).
Definition b_a (d : band) : vect := snd d.

Section Bands.
Variable na : nat.
Variable bands : list band.
(** the unconstrained fit beta of a band, 882-885 *)
Definition beta (d : band) : vect := mv L (b_inv d) (mv na (transpose (b_G d)) (b_a d)).
Definition R_GtGinv_Rt (Rc : mat) (d : band) : mat := mm L Rc (mm L (b_inv d) (transpose Rc)).
(** the matrix of the objective, lu_compute_mtx_obj_initial 1099-1123 and compute_obj_val 1154-1178 *)
Definition mtx_obj (Rc : mat) : option mat :=
  foldM (fun mtx d => let* x := solve out (K + 1) (R_GtGinv_Rt Rc d) (Tmtx (beta d)) in
                      Some (fun i j => mtx i j + mm out (transpose (Tmtx (beta d))) x i j)) bands zeros.
(** compute_obj_val 1180: the square root of a negative number is NaN *)
Definition fitting_error (mtx : mat) (c : vect) : option R :=
  let e := ip (K + 1) c (mv (K + 1) mtx c) in if Rlt_dec e 0 then None else Some (sqrt e).

(** the bordered matrix 903-915 *)
Definition mtx_loop (mtx : mat) (c0 : vect) : mat := vstack (K + 1) (hstack (K + 1) mtx (col c0)) (hstack (K + 1) (transpose (col c0)) zeros).
Definition rhs : mat := fun i _ => if Nat.ltb i (K + 1) then 0 else 1.

(** 938: only a smaller error replaces the best; NaN never does *)
Definition keep (best : option (R * vect)) (e : option R) (c : vect) : option (R * vect) :=
  match e with
  | None => best
  | Some e => match best with
              | None => Some (e, c)
              | Some (e', _) => if Rlt_dec e e' then Some (e, c) else best
              end
  end.
(** the inner loop 917-944; LinAlgError of the bordered system ends it, any other exception goes through *)
Fixpoint inner (c0 : vect) (it : nat) (mtx : mat) (best : option (R * vect)) : option (option (R * vect)) :=
  match it with
  | O => Some best
  | S it => match solve (K + 2) 1 (mtx_loop mtx c0) rhs with
            | None => Some best
            | Some x => let c := fun i => x i 0%nat in
                        let* mtx' := mtx_obj (Rmtx c) in
                        inner c0 it mtx' (keep best (fitting_error mtx' c) c)
            end
  end.
(** the loop over the random initialisations 897-944 *)
Definition search (max_iter : nat) (starts : list vect) : option (option (R * vect)) :=
  foldM (fun best c0 => let* mtx := mtx_obj (Rmtx c0) in inner c0 max_iter mtx best) starts None.

(** compute_b 1211-1231, one band *)
Definition compute_b (Rc : mat) (d : band) : option vect :=
  let* y := solve out 1 (R_GtGinv_Rt Rc d) (col (mv L Rc (beta d))) in
  Some (fun i => beta d i - mv L (b_inv d) (mv out (transpose Rc) (fun r => y r 0%nat)) i).

(** dirac_recon_ri_half_multiband_lu 835-959: (filter, error, half vector of b of each band).  Without any result
    Rmtx_opt is unbound. *)
Definition dirac_recon (max_iter : nat) (starts : list vect) : option (vect * R * list vect) :=
  let* best := search max_iter starts in
  let* ec := best in
  let* bs := mapM (compute_b (Rmtx (snd ec))) bands in
  Some (snd ec, fst ec, bs).
(** the complex filter 943-944, [n] entries of a half vector: real parts D1 v, imaginary parts D2 v *)
Definition c_opt (c : vect) : list C :=
  map (fun i => (mv (K + 1) D_coef c i, mv (K + 1) D_coef c (K + 1 + i)%nat)) (seq 0 (K + 1)).
(** and of b 957 *)
Definition b_opt (b : vect) (i : nat) : C := (mv L D b i, mv L D b (L + i)%nat).
End Bands.

(** ** Azimuths, pt_src_recon_multiband 1786-1836 and 1903-1906 *)
Variable roots : list C -> list C.
(** np.mod(x, 2 pi) *)
Definition mod_2pi (x : R) : R := x - 2 * PI * IZR (Int_part (x / (2 * PI))).
(** [None]: division by zero *)
Definition unit (z : C) : option C := if Req_EM_T (Cabs2 z) 0 then None else Some (Cscal (/ sqrt (Cabs2 z)) z).
Definition azimuth (u : C) : R := mod_2pi (- atan2 (snd u) (fst u)).
(** the measurements [a] of a band are the real parts followed by the imaginary parts *)
Definition a_ri (nv : nat) (a : nat -> C) : vect := fun i => if Nat.ltb i nv then fst (a i) else snd (a (i - nv)%nat).
(** 1786-1795 and 1818-1906 with the mappings given; the phik_recon kept are those of the only round *)
Definition pt_src_recon_multiband (n_mics max_iter : nat) (starts : list vect) (bands : list (mat * (nat -> C))) : option (list R * R) :=
  if Nat.ltb M K then None else
  if Nat.ltb (n_mics * (n_mics - 1)) (2 * M + 1) then None else
  let nv := (n_mics * (n_mics - 1))%nat in
  let* ds := mapM (fun Ga => let* i := GtG_inv (2 * nv) (fst Ga) in Some (fst Ga, i, a_ri nv (snd Ga))) bands in
  let* r := dirac_recon (2 * nv) ds max_iter starts in
  let* uk := mapM unit (roots (c_opt (fst (fst r)))) in
  Some (map (fun phi => mod_2pi (phi - PI)) (map azimuth uk), snd (fst r)).
End Recon.
