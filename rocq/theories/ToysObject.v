(** The interpreter of the toys language as an object which is used several times. *)
From Verif Require Import Base Closure Text Toys.
From Coq Require Import ZArith.
Set Implicit Arguments.
Local Open Scope nat_scope.
Local Open Scope list_scope.

(** toys/src/interpreter.rs 8-11. *)
Record interp := mk_interp { i_vars : environment; i_fns : functions }.
(** interpreter.rs 14-19. *)
Definition interp_new : interp := mk_interp (mk_env [] []) [].
(** interpreter.rs 21-24. *)
Definition interp_reset (i : interp) : interp := mk_interp (mk_env [] []) [].
(** interpreter.rs 26-28; None is the panic of unwrap. *)
Definition get_value (i : interp) (x : name) : option value := hm_get (env_bindings (i_vars i)) x.
(** interpreter.rs 30-56 on the interpreter [i]; the interpreter behind the call is returned with the value.  What it is after a
    panic is not modelled: the variable environment may then be the one of a called function. *)
Definition call_main_on (checked : bool) (fuel : nat) (i : interp) (e : expr) : result (value * interp) :=
  let s0 := mk_state (i_vars i) [] in
  match e with
  | EProgram defs =>
      bind (load checked fuel (i_fns i) defs s0) (fun fns s =>
        match hm_get fns main_name with
        | Some (_, body) => bind (interpret checked fns fuel body s) (fun v s' => Ret (v, mk_interp (env s') fns) s')
        | None => Pan s
        end)
  | _ => Pan s0
  end.
