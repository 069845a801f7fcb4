(** Symmetric matrices, their eigenvectors, and the likelihood of a training set. *)
From Coq Require Import List ZArith Lia Reals Bool.
From Verif Require Import Base Vec Sum HmmModel HmmSpec GaussModel.
Import ListNotations.
Local Open Scope R_scope.
Definition delta (i j : nat) : R := if Nat.eqb i j then 1 else 0.
(** The columns, and the rows, of [u] are orthonormal. *)
Definition orthogonal (O : nat) (u : nat -> nat -> R) : Prop :=
  (forall i j, (i < O)%nat -> (j < O)%nat -> bsum O (fun r => u r i * u r j) = delta i j) /\
  (forall r q, (r < O)%nat -> (q < O)%nat -> bsum O (fun i => u r i * u q i) = delta r q).
(** [S = u diag(s) u^T] *)
Definition decomposes (O : nat) (M : nat -> nat -> R) (su : (nat -> R) * (nat -> nat -> R)) : Prop :=
  orthogonal O (snd su) /\ forall r q, (r < O)%nat -> (q < O)%nat -> M r q = bsum O (fun i => fst su i * (snd su r i * snd su q i)).
Definition symmetric (O : nat) (M : nat -> nat -> R) : Prop := forall r q, (r < O)%nat -> (q < O)%nat -> M r q = M q r.
(** [v^T S v] *)
Definition quad (O : nat) (M : nat -> nat -> R) (v : nat -> R) : R := bsum O (fun r => bsum O (fun q => v r * M r q * v q)).
(** The eigenvectors found for the covariances of [e] are right; all these covariances are positive. *)
Definition solved (eigh : nat -> (nat -> nat -> R) -> (nat -> R) * (nat -> nat -> R)) (e : gaussian) : Prop := forall k, (k < ga_K e)%nat -> decomposes (ga_O e) (ga_S e k) (eigh (ga_O e) (ga_S e k)).
Definition definite (O : nat) (M : nat -> nat -> R) : Prop := forall v, (exists r, (r < O)%nat /\ v r <> 0) -> 0 < quad O M v.
Definition proper_gaussian (e : gaussian) : Prop := forall k, (k < ga_K e)%nat -> definite (ga_O e) (ga_S e k).
Definition shaped_gaussian (e : gaussian) (X : list vec) : Prop := forall x, In x X -> length x = ga_O e.
Definition densities_gaussian eigh (e : gaussian) (X : list vec) : list (nat -> R) := map (fun x k => gauss_pdf (ga_O e) (ga_mu e k) (eigh (ga_O e) (ga_S e k)) x) X.
Definition total_ll_gaussian eigh (m : hmm) (e : gaussian) (examples : list (list vec)) : option R := let* ls := mapM (loglikelihood_gaussian eigh m e) examples in Some (Rsum ls).
(** No state is left less than 1e-15 times (unless never). *)
Definition not_rare_gaussian eigh (m : hmm) (e : gaussian) (examples : list (list vec)) : Prop := forall i, (i < hm_K m)%nat -> let v := Rsum (map (fun X => visits (hm_K m) (hm_A m) (hm_pi m) (densities_gaussian eigh e X) i) examples) in v = 0 \/ tiny <= v.
(** [n] training iterations. *)
Fixpoint train_gaussian eigh (n : nat) (m : hmm) (e : gaussian) (examples : list (list vec)) : option (hmm * gaussian) :=
  match n with O => Some (m, e) | S n => let* r := train_gaussian eigh n m e examples in let* s := fit_step_gaussian eigh (fst r) (snd r) examples in Some (fst s) end.
