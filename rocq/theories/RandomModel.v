(* Random sampling.  Source: /repo/pyroomacoustics/random/sampler.py lines 22-83
   (RejectionSampler), random/spherical.py lines 27-109, random/generator.py
   lines 44-84.  Random generators are states of an arbitrary type together with
   arbitrary drawing functions. *)
From Coq Require Import Reals List ZArith Bool Lia Lra.
From Verif Require Import Base Vec GeometryModel.
Import ListNotations.
Local Open Scope R_scope.

(* ------------------------------------------------------------------ *)
Section Rejection.
Context {P G : Type}.
Variable desired : P -> R.            (* desired_func *)
Variable density : P -> R.            (* proposal_dist.pdf *)
Variable propose : nat -> G -> list P * G.   (* proposal_dist.sample(size, rng) *)
Variable uniform : nat -> G -> list R * G.   (* rng.uniform(size) *)

Record sampler := { s_scale : R; s_rng : G; s_proposed : nat; s_accepted : nat }.
(* lines 23-43; "if not scale" *)
Definition make_sampler (scale : option R) (rng : G) : sampler :=
  {| s_scale := match scale with None => 1 | Some s => if Req_EM_T s 0 then 1 else s end;
     s_rng := rng; s_proposed := 0; s_accepted := 0 |}.
(* lines 45-52 *)
Definition efficiency (s : sampler) : R :=
  if Nat.eqb (s_proposed s) 0 then 1 else INR (s_accepted s) / INR (s_proposed s).
(* line 80: u < desired, with u the uniform number times density times scale *)
Definition accepted (scale : R) (pu : P * R) : bool := Rltb (snd pu * density (fst pu) * scale) (desired (fst pu)).
(* lines 70-93, one round for n_propose missing samples *)
Definition round (scale : R) (n : nat) (g : G) : list P * G :=
  let (p, g1) := propose n g in
  let (u, g2) := uniform n g1 in
  (map fst (filter (accepted scale) (combine p u)), g2).
(* the while loop; None when it has not ended after fuel rounds.  Returns the
   samples, the counters and the generator. *)
Fixpoint loop (fuel : nat) (scale : R) (missing : nat) (g : G) (samples : list P) (np na : nat) : option (list P * nat * nat * G) :=
  match missing with
  | O => Some (samples, np, na, g)
  | _ => match fuel with
         | O => None
         | S f => let (acc, g') := round scale missing g in
                  loop f scale (missing - length acc) g' (samples ++ acc) (np + missing) (na + length acc)
         end
  end.
(* The size argument: None, an int, or a tuple. *)
Inductive size := SNone | SInt (n : nat) | STuple (l : list nat).
(* lines 60-67: "if not size: size = 1"; np.prod *)
Definition norm_size (s : size) : size :=
  match s with SNone | SInt 0 | STuple [] => SInt 1 | s => s end.
Definition flat (s : size) : nat := match s with SNone => 1 | SInt n => n | STuple l => fold_right Nat.mul 1%nat l end.
(* lines 95-99: the shape before the dimension *)
Definition lead (s : size) : list nat := match s with SNone => [1%nat] | SInt n => [n] | STuple l => l end.
(* With rng = None the sampler's own generator is used and advanced. *)
Definition sample (fuel : nat) (s : sampler) (sz : size) (rng : option G) : option (list P * list nat * sampler * G) :=
  let sz := norm_size sz in
  match loop fuel (s_scale s) (flat sz) (match rng with Some g => g | None => s_rng s end) [] (s_proposed s) (s_accepted s) with
  | None => None
  | Some (x, np, na, g') =>
      Some (x, lead sz, {| s_scale := s_scale s; s_rng := match rng with Some _ => s_rng s | None => g' end;
                           s_proposed := np; s_accepted := na |}, g')
  end.
(* A history of calls, each with its fuel. *)
Fixpoint sample_run (s : sampler) (l : list (nat * (size * option G))) : option (sampler * nat) :=
  match l with
  | [] => Some (s, 0%nat)
  | (fuel, (sz, rng)) :: r =>
      match sample fuel s sz rng with
      | None => None
      | Some (x, _, s', _) => match sample_run s' r with Some (s'', n) => Some (s'', (length x + n)%nat) | None => None end
      end
  end.
End Rejection.

(* ------------------------------------------------------------------ *)
(* spherical.py:27-58, one sample; g are the normal numbers; None: 0/0 *)
Definition uniform_spherical (g : list R) : option (list R) :=
  if Req_EM_T (vnorm g) 0 then None else Some (vscal (/ vnorm g) g).
Definition eps_spherical : R := 1 / 10000000.
(* lines 61-109, one sample: z the beta number, g the dim - 1 normal numbers *)
Definition e1 (n : nat) : list R := match n with O => [] | S m => 1 :: repeat 0 m end.
Definition power_spherical (loc : list R) (z : R) (g : list R) : option (list R) :=
  let* v := uniform_spherical g in
  let t := 2 * z - 1 in
  let y := t :: vscal (sqrt (1 - t * t)) v in
  let u_hat := vminus (e1 (length loc)) loc in
  let u := vscal (/ (vnorm u_hat + eps_spherical)) u_hat in
  Some (vminus y (vscal (2 * dot u y) u)).
(* lines 95-96: z is drawn from the generator given, the direction from the
   package's generator *)
Section Power.
Context {G : Type}.
Variable beta : G -> R * G.
Variable normals : nat -> G -> list R * G.
Definition power_spherical_call (loc : list R) (rng package : G) : option (list R) * G * G :=
  let (z, rng') := beta rng in
  let (g, package') := normals (length loc - 1) package in
  (power_spherical loc z g, rng', package').
End Power.

(* ------------------------------------------------------------------ *)
(* generator.py:44-84.  default_rng k: the generator seeded with k, or with
   entropy from the system; integers: a draw of 64 bits. *)
Section Seeding.
Context {K G : Type}.
Variable default_rng : K -> G.
Variable integers : G -> Z * G.
Record globals := { g_rng : option G; g_libroom : Z }.
Definition set_libroom_seed (entropy : K) (st : globals) (seed : option Z) : globals :=
  let rng := match g_rng st with Some r => r | None => default_rng entropy end in
  match seed with
  | Some s => {| g_rng := Some rng; g_libroom := s |}
  | None => let (s, rng') := integers rng in {| g_rng := Some rng'; g_libroom := s |}
  end.
Definition seed (entropy : K) (st : globals) (numpy : option K) (libroom : option Z) : globals :=
  set_libroom_seed entropy {| g_rng := Some (default_rng (match numpy with Some k => k | None => entropy end)); g_libroom := g_libroom st |} libroom.
Definition get_rng (entropy : K) (st : globals) : globals :=
  match g_rng st with Some _ => st | None => seed entropy st None None end.
(* A program using the package: draws from the global generator, libroom
   simulations (which only use libroom's generator), and seedings. *)
Context {A : Type}.
Inductive act := Draw (f : G -> A * G) | Lib (f : Z -> A * Z) | Seed (numpy : option K) (libroom : option Z).
Definition act_step (entropy : K) (st : globals) (a : act) : list A * globals :=
  match a with
  | Draw f => match g_rng (get_rng entropy st) with
              | Some r => let (x, r') := f r in ([x], {| g_rng := Some r'; g_libroom := g_libroom (get_rng entropy st) |})
              | None => ([], st)
              end
  | Lib f => let (x, z) := f (g_libroom st) in ([x], {| g_rng := g_rng st; g_libroom := z |})
  | Seed n l => ([], seed entropy st n l)
  end.
(* the entropy may differ at every step *)
Fixpoint act_run (entropy : nat -> K) (st : globals) (l : list act) : list A :=
  match l with
  | [] => []
  | a :: r => let (x, st') := act_step (entropy 0%nat) st a in x ++ act_run (fun i => entropy (S i)) st' r
  end.
End Seeding.
