(** The number of threads of the package.
    /repo/pyroomacoustics/parameters.py: get_num_threads 149-173, its place among the constants 188 and 199-222.

    [to_int] is Python's int() of a string and [cpu_count] is os.cpu_count(), which may be None.  [None] is an exception. *)
From Coq Require Import List ZArith Lia Bool String.
From Verif Require Import Base ParamModel.
Import ListNotations.
Local Open Scope string_scope.

Section Threads.
Variable to_int : string -> option Z.

(** os.environ as a mapping: var in os.environ, os.environ[var] *)
Definition environ : Type := list (string * string).
Definition lookup_env (env : environ) (var : string) : option string :=
  option_map snd (find (fun p => String.eqb (fst p) var) env).

(** os.environ as an object: the attributes of class os._Environ and of its bases; variables are not among them.  What is found is
    never a number, so that int() of it raises *)
Definition environ_attributes : list string :=
  ["encodekey"; "decodekey"; "encodevalue"; "decodevalue"; "_data"; "copy"; "setdefault"; "get"; "items"; "keys"; "pop"; "popitem"; "clear"; "update"; "values"].
(** int(getattr(os.environ, var, num_cores)) 171 *)
Definition int_of_attribute (env : environ) (cpu_count : option Z) (var : string) : option Z :=
  if existsb (String.eqb var) environ_attributes then None else cpu_count.

(** 149-173 *)
Definition get_num_threads (env : environ) (cpu_count : option Z) : option Z :=
  match lookup_env env "PRA_NUM_THREADS" with
  | Some s => to_int s
  | None =>
      let* all_limits := mapM (int_of_attribute env cpu_count) ["OMP_NUM_THREADS"; "MKL_NUM_THREADS"] in
      match all_limits with
      | x :: rest => Some (fold_left Z.min rest x)
      | [] => None
      end
  end.

(** constants.get("num_threads"), the default evaluated when the package is imported (188) *)
Definition num_threads (env : environ) (cpu_count : option Z) (user : list (string * Z)) : option Z :=
  let* d := get_num_threads env cpu_count in constants_get user [("num_threads", d)] "num_threads".
End Threads.
