(** Model of pyroomacoustics/recognition.py: hidden Markov models.  States and components are
    numbers, matrices are functions, time series are lists.  A division by zero (NaN) is a failure. *)
From Coq Require Import List ZArith Lia Reals Bool.
From Verif Require Import Base Vec Sum DenoiseModel.
Import ListNotations.
Local Open Scope R_scope.

(** ** Markov chain *)
Record hmm := { hm_K : nat; hm_A : nat -> nat -> R; hm_pi : nat -> R }.
Inductive hmm_kind := Full | LeftRight (jump : Z) | Other.
Definition tabulate {A} (K : nat) (f : nat -> option A) : option (list A) := mapM f (seq 0 K).
Definition as_row (l : vec) : nat -> R := fun k => nth k l 0.
(** v /= v.sum() *)
Definition normalized (K : nat) (v : nat -> R) : option (nat -> R) := let* l := tabulate K (fun k => rdiv (v k) (bsum K v)) in Some (as_row l).
Definition normalized_rows (K : nat) (A : nat -> nat -> R) : option (nat -> nat -> R) :=
  let* rows := tabulate K (fun i => normalized K (A i)) in Some (fun i => nth i rows (fun _ => 0)).
(** recognition.py:158-200; [U], [u] are the random draws *)
Definition hmm_init (kind : hmm_kind) (K : nat) (U : nat -> nat -> R) (u : nat -> R) : option hmm :=
  let A0 := match kind with
            | Full => U
            | LeftRight jump =>
                let T := fun i j => if ((i <=? j)%nat && (Z.of_nat j - Z.of_nat i <=? jump)%Z)%bool then U i j else 0 in
                fun i j => T i j + (if Nat.eqb i j then bsum K (T i) * 2 else 0)
            | Other => fun _ _ => 0
            end in
  let pi0 := match kind with Full => u | LeftRight _ => fun k => if Nat.eqb k 0 then 1 else 0 | Other => fun _ => 0 end in
  let* A := normalized_rows K A0 in
  let* p := normalized K pi0 in
  Some {| hm_K := K; hm_A := A; hm_pi := p |}.

(** 345-364: rows of p_x_given_z as functions of the state *)
Definition scaled (K : nat) (a : nat -> R) : option ((nat -> R) * R) :=
  let c := bsum K a in if Req_EM_T c 0 then None else Some (fun k => a k / c, c).
Fixpoint forward_from (K : nat) (A : nat -> nat -> R) (prev : nat -> R) (ps : list (nat -> R)) : option (list (nat -> R) * list R) :=
  match ps with
  | [] => Some ([], [])
  | p :: ps => let* ac := scaled K (fun j => p j * bsum K (fun i => A i j * prev i)) in
               let* r := forward_from K A (fst ac) ps in Some (fst ac :: fst r, snd ac :: snd r)
  end.
Definition forward (m : hmm) (ps : list (nat -> R)) : option (list (nat -> R) * list R) :=
  match ps with
  | [] => None
  | p :: ps => let* ac := scaled (hm_K m) (fun k => p k * hm_pi m k) in
               let* r := forward_from (hm_K m) (hm_A m) (fst ac) ps in Some (fst ac :: fst r, snd ac :: snd r)
  end.
(** 366-379 *)
Fixpoint backward (m : hmm) (ps : list (nat -> R)) (c : list R) : list (nat -> R) :=
  match ps, c with
  | _ :: ((p1 :: _) as ps'), _ :: ((c1 :: _) as c') =>
      let bs := backward m ps' c' in
      (fun k => bsum (hm_K m) (fun j => hm_A m k j * (p1 j * hd (fun _ => 0) bs j)) / c1) :: bs
  | [_], _ => [fun _ => 1]
  | _, _ => []
  end.
(** 245-268: gamma, xhi *)
Definition gammas (al be : list (nat -> R)) : list (nat -> R) := map2 (fun a b k => a k * b k) al be.
Fixpoint xis (A : nat -> nat -> R) (al be ps : list (nat -> R)) (c : list R) : list (nat -> nat -> R) :=
  match al, be, ps, c with
  | a :: ((_ :: _) as al'), _ :: ((b1 :: _) as be'), _ :: ((p1 :: _) as ps'), _ :: ((c1 :: _) as c') =>
      (fun i j => a i * (b1 j * p1 j) * A i j / c1) :: xis A al' be' ps' c'
  | _, _, _, _ => []
  end.
Record posterior := { po_gamma : list (nat -> R); po_xi : list (nat -> nat -> R); po_ll : R }.
Definition e_step (m : hmm) (ps : list (nat -> R)) : option posterior :=
  let* ac := forward m ps in
  let be := backward m ps (snd ac) in
  Some {| po_gamma := gammas (fst ac) be; po_xi := xis (hm_A m) (fst ac) be ps (snd ac); po_ll := Rsum (map ln (snd ac)) |}.
(** 301-317 *)
Definition tiny : R := / 10 ^ 15.
Definition update_chain (m : hmm) (es : list posterior) : option hmm :=
  if Nat.eqb (length es) 0 then None else
  let pi1 := fun k => Rsum (map (fun e => hd (fun _ => 0) (po_gamma e) k) es) in
  let A1 := fun i j => Rsum (map (fun x => x i j) (concat (map po_xi es))) in
  let* p := normalized (hm_K m) pi1 in
  Some {| hm_K := hm_K m; hm_pi := p;
          hm_A := fun i j => let den := bsum (hm_K m) (A1 i) in if Rlt_dec den tiny then 0 else A1 i j / den |}.

(** ** Gaussian emissions with diagonal covariance (CircularGaussianEmission) *)
Record circular := { em_K : nat; em_O : nat; em_mu : nat -> nat -> R; em_sig : nat -> nat -> R }.
(** scipy.stats.multivariate_normal with a diagonal covariance; a singular one is an error (exactly
    singular: the rounding threshold of scipy is not modelled) *)
Definition normal_pdf (O : nat) (mu sig : nat -> R) (x : vec) : R :=
  Rprod (map (fun d => / sqrt (2 * PI * sig d) * exp (- ((nth d x 0 - mu d) ^ 2) / (2 * sig d))) (seq 0 O)).
(** 60-76; 238: all rows must have [em_O] entries *)
Definition prob_x_given_state (e : circular) (examples : list (list vec)) : option (list (list (nat -> R))) :=
  if forallb (fun k => forallb (fun d => if Rlt_dec 0 (em_sig e k d) then true else false) (seq 0 (em_O e))) (seq 0 (em_K e)) then
    if forallb (forallb (fun x => Nat.eqb (length x) (em_O e))) examples then
      Some (map (map (fun x k => normal_pdf (em_O e) (em_mu e k) (em_sig e k) x)) examples)
    else None
  else None.
(** 43-51 *)
Definition update_emission (e : circular) (examples : list (list vec)) (gamma : list (list (nat -> R))) : option circular :=
  let g := concat gamma in let X := concat examples in
  if Nat.eqb (length examples) 0 then None else
  let Z := fun k => Rsum (map (fun r => r k) g) in
  if forallb (fun k => if Req_EM_T (Z k) 0 then false else true) (seq 0 (em_K e)) then
    let mu := fun k d => Rsum (map2 (fun x r => nth d x 0 * r k) X g) / Z k in
    Some {| em_K := em_K e; em_O := em_O e; em_mu := mu; em_sig := fun k d => Rsum (map2 (fun x r => (nth d x 0 - mu k d) ^ 2 * r k) X g) / Z k |}
  else None.
(** 21-41, with examples *)
Definition emission_of (K : nat) (examples : list (list vec)) : option circular :=
  match examples with
  | (x0 :: _) :: _ =>
      let X := concat examples in let n := INR (length X) in
      let mu := fun d => Rsum (map (fun x => nth d x 0) X) / n in
      Some {| em_K := K; em_O := length x0; em_mu := fun _ => mu; em_sig := fun _ d => Rsum (map (fun x => (nth d x 0 - mu d) ^ 2) X) / n |}
  | _ => None
  end.
(** 336-343 *)
Definition loglikelihood (m : hmm) (e : circular) (X : list vec) : option R :=
  let* pss := prob_x_given_state e [X] in
  match pss with
  | [ps] => let* ac := forward m ps in Some (Rsum (map ln (snd ac)))
  | _ => None
  end.

(** ** Training: 202-299 *)
Definition fit_step (m : hmm) (e : circular) (examples : list (list vec)) : option (hmm * circular * R) :=
  let* pss := prob_x_given_state e examples in
  let* es := mapM (e_step m) pss in
  let* m' := update_chain m es in
  let* e' := update_emission e examples (map po_gamma es) in
  Some (m', e', Rsum (map po_ll es)).
Inductive outcome := Done (m : hmm) (e : circular) (n_iter : nat) | Raised | Running.
Fixpoint fit_loop (fuel : nat) (m : hmm) (e : circular) (examples : list (list vec)) (tol : R) (max_iter n : nat) (old : option R) : outcome :=
  match fuel with
  | O => Running
  | S fuel =>
      match fit_step m e examples with
      | None => Raised
      | Some (m', e', ll) =>
          let small := match old with None => false | Some o => if Rlt_dec (ll - o) tol then true else false end in
          if (small || Nat.eqb (n + 1) max_iter)%bool then Done m' e' (n + 1) else fit_loop fuel m' e' examples tol max_iter (n + 1) (Some ll)
      end
  end.
Definition renormalized (m : hmm) : option hmm :=
  let* A := normalized_rows (hm_K m) (hm_A m) in
  let* p := normalized (hm_K m) (hm_pi m) in
  Some {| hm_K := hm_K m; hm_A := A; hm_pi := p |}.
Definition fit (fuel : nat) (m : hmm) (e : circular) (examples : list (list vec)) (tol : R) (max_iter : nat) : outcome :=
  match renormalized m with None => Raised | Some m => fit_loop fuel m e examples tol max_iter 0 None end.

(** 319-334 generate: the states drawn.  numpy.random.choice rejects probabilities that are negative
    or do not sum to one; otherwise it returns a state of positive probability ([draws]). *)
Definition chosen (K : nat) (p : nat -> R) (k : nat) : bool :=
  ((if Req_EM_T (bsum K p) 1 then true else false) && forallb (fun j => if Rle_dec 0 (p j) then true else false) (seq 0 K) && (k <? K)%nat && (if Rlt_dec 0 (p k) then true else false))%bool.
Fixpoint generate_from (m : hmm) (state : nat) (draws : list nat) : bool :=
  match draws with [] => true | k :: draws => (chosen (hm_K m) (hm_A m state) k && generate_from m k draws)%bool end.
(** the states of the [N] samples and of the extra draw after the last one *)
Definition generates (m : hmm) (states : list nat) : bool :=
  match states with [] => false | k :: draws => (chosen (hm_K m) (hm_pi m) k && generate_from m k draws)%bool end.
