(** The toys interpreter: toys/src/{operator,expr,values,environment,interpreter,labelled_parameter}.rs.
    Strings are lists of characters; i64 is Z with explicit range checks. *)
From Verif Require Import Base Text.
From Coq Require Import ZArith.
Set Implicit Arguments.
Local Open Scope nat_scope.
Local Open Scope list_scope.

(** toys/src/operator.rs 2-16. *)
Inductive op := OMod | OAdd | OSub | OMul | ODiv | OLt | OLe | OGt | OGe | OEq | ONe | OAnd | OOr.
Definition name := list N.
(** toys/src/expr.rs 7-28; labelled_parameter.rs 5-8 (the pairs of ELabelled). *)
Inductive expr :=
| EString (s : list N)
| EInt (z : Z)
| EBool (b : bool)
| EArray (es : list expr)
| EBin (o : op) (l r : expr)
| ESymbol (x : name)
| ECall (f : name) (args : list expr)
| ELabelled (f : name) (args : list (name * expr))
| EIdentifier (x : name)
| EPlus (e : expr)
| EMinus (e : expr)
| EPrintln (e : expr)
| EWhile (c b : expr)
| EIf (c t : expr) (e : option expr)
| EBlock (es : list expr)
| EAssign (x : name) (e : expr)
| EParen (e : expr)
| EGlobal (x : name) (e : expr)
| EFun (f : name) (params : list name) (body : expr)
| EProgram (es : list expr).
(** toys/src/values.rs 4-11. *)
Inductive value := VInt (z : Z) | VBool (b : bool) | VString (s : list N) | VArray (vs : list value).
(** values.rs 27-39; None is the panic. *)
Definition as_int (v : value) : option Z := match v with VInt z => Some z | _ => None end.
Definition as_bool (v : value) : option bool := match v with VBool b => Some b | _ => None end.

(** toys/src/environment.rs 6-9: the bindings, and the chain of enclosing environments, innermost first. *)
Definition bindings := list (name * value).
Record environment := mk_env { env_bindings : bindings; env_next : list bindings }.
(** environment.rs 20-31; the bindings in which the name was found, innermost first. *)
Fixpoint find_chain (bs : list bindings) (x : name) : option bindings :=
  match bs with
  | [] => None
  | b :: bs' => match hm_get b x with Some _ => Some b | None => find_chain bs' x end
  end.
Definition find_binding (e : environment) (x : name) : option bindings := find_chain (env_bindings e :: env_next e) x.

(** interpreter.rs 8-11: variable_environment; function_environment is a parameter of interpret, which does not change it.
    [out] are the values written by println! so far. *)
Record state := mk_state { env : environment; out : list value }.
(** Returned with a state, panicked in a state, or out of fuel. *)
Inductive result (A : Type) := Ret (a : A) (s : state) | Pan (s : state) | Fuel.
Arguments Pan {A}. Arguments Fuel {A}.
Definition bind {A B} (r : result A) (k : A -> state -> result B) : result B :=
  match r with Ret a s => k a s | Pan s => Pan s | Fuel => Fuel end.
Definition of_opt {A} (o : option A) (s : state) : result A := match o with Some a => Ret a s | None => Pan s end.

(** i64: [checked] is overflow-checks (debug build); without it results wrap around. *)
Definition i64_min : Z := (- 2 ^ 63)%Z.
Definition i64_max : Z := (2 ^ 63 - 1)%Z.
Definition in_i64 (z : Z) : bool := ((i64_min <=? z) && (z <=? i64_max))%Z.
Definition wrap (z : Z) : Z := ((z - i64_min) mod 2 ^ 64 + i64_min)%Z.
Definition arith (checked : bool) (z : Z) : option Z := if in_i64 z then Some z else if checked then None else Some (wrap z).
(** `/` and `%` of i64 panic for a zero divisor and for MIN / -1 in every build. *)
Definition div_ok (a b : Z) : bool := negb (b =? 0)%Z && negb ((a =? i64_min)%Z && (b =? -1)%Z).

Definition omap {A B} (f : A -> B) (o : option A) : option B := match o with Some a => Some (f a) | None => None end.
Definition int2 {B} (a b : value) (k : Z -> Z -> option B) : option B :=
  match as_int a with Some x => match as_int b with Some y => k x y | None => None end | None => None end.
(** interpreter.rs 63-77: both operands have been computed; the second as_bool of && and || is skipped when the first decides. *)
Definition binop (checked : bool) (o : op) (a b : value) : option value :=
  match o with
  | OAnd => match as_bool a with Some true => omap VBool (as_bool b) | Some false => Some (VBool false) | None => None end
  | OOr => match as_bool a with Some true => Some (VBool true) | Some false => omap VBool (as_bool b) | None => None end
  | OMod => int2 a b (fun x y => if div_ok x y then Some (VInt (Z.rem x y)) else None)
  | OAdd => int2 a b (fun x y => omap VInt (arith checked (x + y)))
  | OSub => int2 a b (fun x y => omap VInt (arith checked (x - y)))
  | OMul => int2 a b (fun x y => omap VInt (arith checked (x * y)))
  | ODiv => int2 a b (fun x y => if div_ok x y then Some (VInt (Z.quot x y)) else None)
  | OLt => int2 a b (fun x y => Some (VBool (x <? y)%Z))
  | OLe => int2 a b (fun x y => Some (VBool (x <=? y)%Z))
  | OGt => int2 a b (fun x y => Some (VBool (y <? x)%Z))
  | OGe => int2 a b (fun x y => Some (VBool (y <=? x)%Z))
  | OEq => int2 a b (fun x y => Some (VBool (x =? y)%Z))
  | ONe => int2 a b (fun x y => Some (VBool (negb (x =? y)%Z)))
  end.

(** The function_environment: name, formal parameters, body.  call_main only stores FunctionDefinition (40-42), so the else
    branches 156-158 and 180-182 are not reachable. *)
Definition functions := list (name * (list name * expr)).

Section Interp.
Variable checked : bool.
Variable fns : functions.

(** 87-103, after the right-hand side: [defined] is bindings_opt.is_some(), computed before it. *)
Definition assign (defined : bool) (x : name) (v : value) (s : state) : result value :=
  let b := env_bindings (env s) in
  if defined then
    match hm_get b x with
    | Some _ => Ret v (mk_state (mk_env (hm_set b x v) (env_next (env s))) (out s))
    | None => Pan s
    end
  else Ret v (mk_state (mk_env (hm_set b x v) (env_next (env s))) (out s)).
(** 144-145, 170-171. *)
Definition push_frame (s : state) : state := mk_state (mk_env [] (env_bindings (env s) :: env_next (env s))) (out s).
(** 146-151: the loop clones the bindings, inserts into the clone and drops it; what remains is the index panic. *)
Definition bind_params (formals : list name) (vs : list value) (s : state) : result unit :=
  if length vs <? length formals then Pan s else Ret tt s.

Section Lists.
Variable go : expr -> state -> result value.
(** 141-143. *)
Fixpoint eval_args (es : list expr) (s : state) : result (list value) :=
  match es with
  | [] => Ret [] s
  | e :: es' => bind (go e s) (fun v s1 => bind (eval_args es' s1) (fun vs s2 => Ret (v :: vs) s2))
  end.
(** 104-110: [v] is the last value. *)
Fixpoint eval_block (es : list expr) (v : option value) (s : state) : result value :=
  match es with
  | [] => of_opt v s
  | e :: es' => bind (go e s) (fun v s1 => eval_block es' (Some v) s1)
  end.
End Lists.

(** interpreter.rs 58-186. *)
Fixpoint interpret (fuel : nat) (e : expr) (s : state) : result value :=
  match fuel with
  | O => Fuel
  | S fuel' =>
      match e with
      | EBin o l r =>
          bind (interpret fuel' l s) (fun a s1 => bind (interpret fuel' r s1) (fun b s2 => of_opt (binop checked o a b) s2))
      | EString v => Ret (VString v) s
      | EInt z => Ret (VInt z) s
      | EParen e' => interpret fuel' e' s
      | ESymbol x =>
          match find_binding (env s) x with
          | Some b => of_opt (hm_get b x) s
          | None => Pan s
          end
      | EAssign x e' =>
          let defined := match find_binding (env s) x with Some _ => true | None => false end in
          bind (interpret fuel' e' s) (fun v s1 => assign defined x v s1)
      | EBlock es => eval_block (interpret fuel') es None s
      | EPrintln e' => bind (interpret fuel' e' s) (fun v s1 => Ret v (mk_state (env s1) (out s1 ++ [v])))
      | EIf c t e' =>
          bind (interpret fuel' c s) (fun v s1 => bind (of_opt (as_bool v) s1) (fun (b : bool) s1 =>
            if b then interpret fuel' t s1 else match e' with Some e' => interpret fuel' e' s1 | None => Ret (VBool true) s1 end))
      | EWhile c b =>
          bind (interpret fuel' c s) (fun v s1 => bind (of_opt (as_bool v) s1) (fun (t : bool) s1 =>
            if t then bind (interpret fuel' b s1) (fun _ s2 => interpret fuel' (EWhile c b) s2) else Ret (VBool true) s1))
      | ECall f args =>
          match hm_get fns f with
          | Some (formals, body) =>
              bind (eval_args (interpret fuel') args s) (fun vs s1 =>
                bind (bind_params formals vs (push_frame s1)) (fun _ s2 =>
                  bind (interpret fuel' body s2) (fun v s3 => Ret v (mk_state (env s1) (out s3)))))
          | None => Pan s
          end
      | ELabelled f args =>
          match hm_get fns f with
          | Some (_, body) =>
              bind (eval_args (interpret fuel') (map snd args) s) (fun _ s1 =>
                bind (interpret fuel' body (push_frame s1)) (fun v s3 => Ret v (mk_state (env s1) (out s3))))
          | None => Pan s
          end
      | EBool _ | EArray _ | EIdentifier _ | EPlus _ | EMinus _ | EGlobal _ _ | EFun _ _ _ | EProgram _ => Pan s
      end
  end.
End Interp.

Section Main.
Variable checked : bool.
(** interpreter.rs 33-45: the value of a global is computed and dropped (the clone of the bindings is not stored). *)
Fixpoint load (fuel : nat) (fns : functions) (defs : list expr) (s : state) : result functions :=
  match defs with
  | [] => Ret fns s
  | EGlobal _ e :: defs' => bind (interpret checked fns fuel e s) (fun _ s1 => load fuel fns defs' s1)
  | EFun f ps b :: defs' => load fuel (hm_set fns f (ps, b)) defs' s
  | _ :: _ => Pan s
  end.
(** interpreter.rs 30-56, on a new interpreter (14-19). *)
Definition start : state := mk_state (mk_env [] []) [].
Definition main_name : name := [109; 97; 105; 110]%N.
Definition call_main (fuel : nat) (e : expr) : result value :=
  match e with
  | EProgram defs =>
      bind (load fuel [] defs start) (fun fns s =>
        match hm_get fns main_name with
        | Some (_, body) => interpret checked fns fuel body s
        | None => Pan s
        end)
  | _ => Pan start
  end.
End Main.

(** toys/src/parsers.rs 113-128: `for (x in from to to_) body`. *)
Definition for_expr (x : name) (from to_ body : expr) : expr :=
  EBlock [EAssign x from;
          EWhile (EBin OLt (ESymbol x) to_) (EBlock [body; EAssign x (EBin OAdd (ESymbol x) (EInt 1))])].
