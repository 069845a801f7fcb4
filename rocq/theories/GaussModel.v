(** Emissions with full covariance matrices: recognition.py GaussianEmission, and one iteration of
    HMM.fit with it. *)
From Coq Require Import List ZArith Lia Reals Bool.
From Verif Require Import Base Vec Sum HmmModel.
Import ListNotations.
Local Open Scope R_scope.
(** recognition.py:79-102: [ga_mu e k] is self.mu[k] and [ga_S e k] is self.Sigma[k]. *)
Record gaussian := { ga_K : nat; ga_O : nat; ga_mu : nat -> nat -> R; ga_S : nat -> nat -> nat -> R }.
(** 86-92, without examples: the means and the matrices drawn by numpy.random.normal are arguments. *)
Definition gaussian_random (K odim : nat) (mu : nat -> nat -> R) (W : nat -> nat -> nat -> R) : gaussian :=
  {| ga_K := K; ga_O := odim; ga_mu := mu; ga_S := fun k r q => bsum odim (fun i => W k i r * W k i q) + (if Nat.eqb r q then 1 else 0) |}.
(** 94-102, with examples: the same mean and diagonal covariance for all states.  The empty list
    raises; without frames the mean is not a number. *)
Definition gaussian_of (K : nat) (examples : list (list vec)) : option gaussian :=
  match examples with
  | (x0 :: _) :: _ =>
      let X := concat examples in let n := INR (length X) in
      let mu := fun d => Rsum (map (fun x => nth d x 0) X) / n in
      Some {| ga_K := K; ga_O := length x0; ga_mu := fun _ => mu;
              ga_S := fun _ r q => if Nat.eqb r q then Rsum (map (fun x => (nth r x 0 - mu r) ^ 2) X) / n else 0 |}
  | _ => None
  end.
(** 104-112; a state without weight gives parameters that are not numbers. *)
Definition update_gaussian (e : gaussian) (examples : list (list vec)) (gamma : list (list (nat -> R))) : option gaussian :=
  let g := concat gamma in let X := concat examples in
  if Nat.eqb (length examples) 0 then None else
  let Z := fun k => Rsum (map (fun r => r k) g) in
  if forallb (fun k => if Req_EM_T (Z k) 0 then false else true) (seq 0 (ga_K e)) then
    let mu := fun k d => Rsum (map2 (fun x r => nth d x 0 * r k) X g) / Z k in
    Some {| ga_K := ga_K e; ga_O := ga_O e; ga_mu := mu;
            ga_S := fun k a b => Rsum (map2 (fun x r => ((nth a x 0 - mu k a) * r k) * ((nth b x 0 - mu k b) / Z k)) X g) |}
  else None.

(** 118-133.  scipy.stats.multivariate_normal decomposes the matrix with scipy.linalg.eigh, the
    argument [eigh]: for the size and the matrix it returns the eigenvalues and, in columns, the
    eigenvectors.  It raises unless all eigenvalues are positive (above a rounding threshold, here
    zero), whitens with the eigenvectors scaled by the square roots of the inverse eigenvalues and
    takes the exponential of the log-density. *)
Definition gauss_pdf (O : nat) (mu : nat -> R) (su : (nat -> R) * (nat -> nat -> R)) (x : vec) : R :=
  exp (- (1 / 2) * (INR O * ln (2 * PI) + bsum O (fun i => ln (fst su i)) +
    bsum O (fun i => (bsum O (fun r => (nth r x 0 - mu r) * (snd su r i * sqrt (/ fst su i)))) ^ 2))).
Section Eigh.
Variable eigh : nat -> (nat -> nat -> R) -> (nat -> R) * (nat -> nat -> R).
Definition prob_gaussian (e : gaussian) (examples : list (list vec)) : option (list (list (nat -> R))) :=
  if forallb (fun k => forallb (fun i => if Rlt_dec 0 (fst (eigh (ga_O e) (ga_S e k)) i) then true else false) (seq 0 (ga_O e))) (seq 0 (ga_K e)) then
    if forallb (forallb (fun x => Nat.eqb (length x) (ga_O e))) examples then
      Some (map (map (fun x k => gauss_pdf (ga_O e) (ga_mu e k) (eigh (ga_O e) (ga_S e k)) x)) examples)
    else None
  else None.
(** 336-343 *)
Definition loglikelihood_gaussian (m : hmm) (e : gaussian) (X : list vec) : option R :=
  let* pss := prob_gaussian e [X] in
  match pss with
  | [ps] => let* ac := forward m ps in Some (Rsum (map ln (snd ac)))
  | _ => None
  end.
(** 202-299: one iteration of HMM.fit *)
Definition fit_step_gaussian (m : hmm) (e : gaussian) (examples : list (list vec)) : option (hmm * gaussian * R) :=
  let* pss := prob_gaussian e examples in
  let* es := mapM (e_step m) pss in
  let* m' := update_chain m es in
  let* e' := update_gaussian e examples (map po_gamma es) in
  Some (m', e', Rsum (map po_ll es)).
End Eigh.
