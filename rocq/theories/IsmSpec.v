(** Vocabulary for the statements about the general image source model. *)
From Coq Require Import List ZArith Reals Bool.
From Verif Require Import Base Vec GeometryModel WallModel WallSpec RayModel.
Import ListNotations.
Local Open Scope R_scope.

(** A reflection sequence is a list of wall numbers, the last reflection first. *)

(** [image_of r eps src word q]: mirroring [src] successively across the walls of [word]
    gives [q], each point being farther than [eps] inside the wall it is mirrored
    across. *)
Inductive image_of (r : room) (eps : R) (src : vec) : list nat -> vec -> Prop :=
| image_src : image_of r eps src [] src
| image_refl : forall word p i w q, image_of r eps src word p ->
    nth_error (r_walls r) i = Some w ->
    height (w_origin w) (w_normal w) p < - eps ->
    is_mirror (w_origin w) (w_normal w) p q ->
    image_of r eps src (i :: word) q.

(** Amplitude factor of one reflection in band [b]: the square root of the reflected
    energy and, in hybrid simulations, of the part that is not scattered. *)
Definition wall_factor (r : room) (b i : nat) : R :=
  let w := nth i (r_walls r) wall0 in
  sqrt (1 - nth b (w_abs w) 0) * (if r_hybrid r then sqrt (1 - nth b (w_scat w) 0) else 1).
Definition amplitude (r : room) (word : list nat) (b : nat) : R :=
  Rprod (map (wall_factor r b) word).

(** The wall [i] hides the point [p] from the image at [loc] of the sequence [word]: it
    is not the wall of the last reflection, it crosses the segment away from the
    endpoints and, for a reflected image, beyond the wall of the last reflection. *)
Definition hides (r : room) (eps : R) (word : list nat) (loc p : vec) (i : nat) : Prop :=
  (forall g ws, word = g :: ws -> i <> g) /\
  exists c x, wall_intersection (r_dim r) eps (nth i (r_walls r) wall0) loc p = (c, Some x) /\
    (c = 0 \/ c = 2)%Z /\
    forall g ws, word = g :: ws ->
      side eps (nth g (r_walls r) wall0) x <> side eps (nth g (r_walls r) wall0) loc /\
      side eps (nth g (r_walls r) wall0) x <> 0%Z.

(** [sees r eps src word p xs]: from [p] the image of [word] is visible through the
    reflection points [xs] (the one nearest to [p] first). *)
Inductive sees (r : room) (eps : R) (src : vec) : list nat -> vec -> list vec -> Prop :=
| sees_src : forall p, (forall i, In i (r_obs r) -> ~ hides r eps [] src p i) ->
    sees r eps src [] p []
| sees_refl : forall g word p loc c x xs, image_of r eps src (g :: word) loc ->
    (forall i, In i (r_obs r) -> ~ hides r eps (g :: word) loc p i) ->
    wall_intersection (r_dim r) eps (nth g (r_walls r) wall0) p loc = (c, Some x) -> (0 <= c)%Z ->
    sees r eps src word x xs ->
    sees r eps src (g :: word) p (x :: xs).

(** First point reached when leaving the source: the last reflection point, or the
    receiver itself. *)
Definition first_leg (p : vec) (xs : list vec) : vec := last xs p.

(** Order in which sequences are explored: a sequence before its continuations,
    otherwise by the first wall (in time) where they differ. *)
Inductive before : list nat -> list nat -> Prop :=
| before_prefix : forall i w, before [] (i :: w)
| before_lt : forall i j u v, (i < j)%nat -> before (i :: u) (j :: v)
| before_eq : forall i u v, before u v -> before (i :: u) (i :: v).

(** A wall fit for the model: unit normal, dimensions; in 2D a segment orthogonal to its
    normal. *)
Definition wall_fit (D : nat) (w : wall) : Prop :=
  length (w_normal w) = D /\ length (w_origin w) = D /\ dot (w_normal w) (w_normal w) = 1 /\
  (D = 2%nat -> exists c1, w_corners w = [w_origin w; c1] /\ length c1 = 2%nat /\ c1 <> w_origin w /\
     height (w_origin w) (w_normal w) c1 = 0).
Definition room_fit (r : room) : Prop :=
  (r_dim r = 2%nat \/ r_dim r = 3%nat) /\ (forall w, In w (r_walls r) -> wall_fit (r_dim r) w).

(** Length of the broken line from [p] through [xs] to [src]. *)
Fixpoint path_length (p : vec) (xs : list vec) (src : vec) : R :=
  match xs with [] => vdist p src | x :: xs' => vdist p x + path_length x xs' src end.

(** Law of reflection at [x] for the legs to [a] and [b]: equal angles with the normal,
    opposite tangential parts. *)
Definition mirror_law (n x a b : vec) : Prop :=
  dot n (vminus a x) * vdist b x = dot n (vminus b x) * vdist a x /\
  forall t, length t = length n -> dot n t = 0 ->
    dot t (vminus a x) * vdist b x = - (dot t (vminus b x) * vdist a x).
Fixpoint obeys_mirror_law (r : room) (word : list nat) (p : vec) (xs : list vec) (src : vec) : Prop :=
  match word, xs with
  | [], [] => True
  | g :: word', x :: xs' =>
      mirror_law (w_normal (nth g (r_walls r) wall0)) x p (hd src xs') /\
      obeys_mirror_law r word' x xs' src
  | _, _ => False
  end.

(** The broken line stays on the inner side: each point is not beyond the wall where
    the next reflection happens. *)
Fixpoint stays_inside (r : room) (word : list nat) (p : vec) (xs : list vec) : Prop :=
  match word, xs with
  | g :: word', x :: xs' =>
      height (w_origin (nth g (r_walls r) wall0)) (w_normal (nth g (r_walls r) wall0)) p <= 0 /\
      stays_inside r word' x xs'
  | _, _ => True
  end.

(** All walls have one coefficient per band, and scattering coefficients are not
    negative. *)
Definition bands_ok (r : room) (n : nat) : Prop :=
  (0 < length (r_walls r))%nat /\
  forall w, In w (r_walls r) -> length (w_abs w) = n /\ length (w_scat w) = n /\ forall s, In s (w_scat w) -> 0 <= s.

(** The reflection points lie in the planes of the walls of the sequence. *)
Definition on_walls (r : room) (word : list nat) (xs : list vec) : Prop :=
  Forall2 (fun g x => exists w, nth_error (r_walls r) g = Some w /\ height (w_origin w) (w_normal w) x = 0) word xs.
