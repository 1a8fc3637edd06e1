(** Natural semantics of the toys language as it is implemented, without fuel: [ev e s (Some v) s'] - evaluation of [e] in [s]
    returns [v] in [s']; [ev e s None s'] - it panics in [s'].  An expression without derivation runs for ever. *)
From Verif Require Import Base Text Toys.
From Coq Require Import ZArith.
Set Implicit Arguments.
Local Open Scope nat_scope.
Local Open Scope list_scope.

(** The innermost binding. *)
Inductive lookup : list bindings -> name -> value -> Prop :=
| lk_here : forall b bs x v, hm_get b x = Some v -> lookup (b :: bs) x v
| lk_next : forall b bs x v, hm_get b x = None -> lookup bs x v -> lookup (b :: bs) x v.
Definition chain (s : state) : list bindings := env_bindings (env s) :: env_next (env s).
Definition bound (s : state) (x : name) : Prop := exists v, lookup (chain s) x v.
Definition bound_here (s : state) (x : name) : Prop := exists v, hm_get (env_bindings (env s)) x = Some v.
(** [x] is [v] in the innermost frame; nothing else changes. *)
Definition store (s : state) (x : name) (v : value) : state :=
  mk_state (mk_env (hm_set (env_bindings (env s)) x v) (env_next (env s))) (out s).
Definition written (s : state) (v : value) : state := mk_state (env s) (out s ++ [v]).
(** A new innermost frame without bindings. *)
Definition fresh (s : state) : state := mk_state (mk_env [] (chain s)) (out s).

Definition i64 (z : Z) : Prop := (i64_min <= z <= i64_max)%Z.
(** Result of an arithmetic operation: the exact one if it fits; otherwise congruent to it modulo 2^64 if overflow is not checked. *)
Definition arith_rel (checked : bool) (exact z : Z) : Prop :=
  i64 z /\ (z = exact \/ checked = false /\ ~ i64 exact /\ exists k, (z = exact + k * 2 ^ 64)%Z).
Inductive bin_rel (checked : bool) : op -> value -> value -> value -> Prop :=
| b_and_t : forall b, bin_rel checked OAnd (VBool true) (VBool b) (VBool b)
| b_and_f : forall w, bin_rel checked OAnd (VBool false) w (VBool false)
| b_or_t : forall w, bin_rel checked OOr (VBool true) w (VBool true)
| b_or_f : forall b, bin_rel checked OOr (VBool false) (VBool b) (VBool b)
| b_add : forall x y z, arith_rel checked (x + y) z -> bin_rel checked OAdd (VInt x) (VInt y) (VInt z)
| b_sub : forall x y z, arith_rel checked (x - y) z -> bin_rel checked OSub (VInt x) (VInt y) (VInt z)
| b_mul : forall x y z, arith_rel checked (x * y) z -> bin_rel checked OMul (VInt x) (VInt y) (VInt z)
| b_div : forall x y, y <> 0%Z -> ~ (x = i64_min /\ y = (-1)%Z) -> bin_rel checked ODiv (VInt x) (VInt y) (VInt (Z.quot x y))
| b_mod : forall x y, y <> 0%Z -> ~ (x = i64_min /\ y = (-1)%Z) -> bin_rel checked OMod (VInt x) (VInt y) (VInt (Z.rem x y))
| b_cmp : forall o x y b, (match o with
                           | OLt => b = true <-> (x < y)%Z
                           | OLe => b = true <-> (x <= y)%Z
                           | OGt => b = true <-> (x > y)%Z
                           | OGe => b = true <-> (x >= y)%Z
                           | OEq => b = true <-> x = y
                           | ONe => b = true <-> x <> y
                           | _ => False
                           end) -> bin_rel checked o (VInt x) (VInt y) (VBool b).

(** What interpret does not handle. *)
Inductive unsupported : expr -> Prop :=
| u_bool : forall b, unsupported (EBool b)
| u_array : forall es, unsupported (EArray es)
| u_ident : forall x, unsupported (EIdentifier x)
| u_plus : forall e, unsupported (EPlus e)
| u_minus : forall e, unsupported (EMinus e)
| u_global : forall x e, unsupported (EGlobal x e)
| u_fun : forall f ps b, unsupported (EFun f ps b)
| u_program : forall es, unsupported (EProgram es).

Section Ev.
Variable checked : bool.
Variable fns : functions.
Inductive ev : expr -> state -> option value -> state -> Prop :=
| ev_int : forall z s, ev (EInt z) s (Some (VInt z)) s
| ev_string : forall t s, ev (EString t) s (Some (VString t)) s
| ev_paren : forall e s r s', ev e s r s' -> ev (EParen e) s r s'
| ev_unsupported : forall e s, unsupported e -> ev e s None s
| ev_symbol : forall x v s, lookup (chain s) x v -> ev (ESymbol x) s (Some v) s
| ev_symbol_p : forall x s, ~ bound s x -> ev (ESymbol x) s None s
| ev_bin : forall o l r a b v s s1 s2, ev l s (Some a) s1 -> ev r s1 (Some b) s2 -> bin_rel checked o a b v -> ev (EBin o l r) s (Some v) s2
| ev_bin_p : forall o l r a b s s1 s2, ev l s (Some a) s1 -> ev r s1 (Some b) s2 -> (forall v, ~ bin_rel checked o a b v) -> ev (EBin o l r) s None s2
| ev_bin_p1 : forall o l r s s1, ev l s None s1 -> ev (EBin o l r) s None s1
| ev_bin_p2 : forall o l r a s s1 s2, ev l s (Some a) s1 -> ev r s1 None s2 -> ev (EBin o l r) s None s2
| ev_assign : forall x e v s s1, ev e s (Some v) s1 -> ~ bound s x \/ bound_here s1 x -> ev (EAssign x e) s (Some v) (store s1 x v)
| ev_assign_p : forall x e v s s1, ev e s (Some v) s1 -> bound s x -> ~ bound_here s1 x -> ev (EAssign x e) s None s1
| ev_assign_p1 : forall x e s s1, ev e s None s1 -> ev (EAssign x e) s None s1
| ev_block0 : forall s, ev (EBlock []) s None s
| ev_block1 : forall e s r s1, ev e s r s1 -> ev (EBlock [e]) s r s1
| ev_block : forall e es s v s1 r s2, es <> [] -> ev e s (Some v) s1 -> ev (EBlock es) s1 r s2 -> ev (EBlock (e :: es)) s r s2
| ev_block_p : forall e es s s1, es <> [] -> ev e s None s1 -> ev (EBlock (e :: es)) s None s1
| ev_println : forall e s v s1, ev e s (Some v) s1 -> ev (EPrintln e) s (Some v) (written s1 v)
| ev_println_p : forall e s s1, ev e s None s1 -> ev (EPrintln e) s None s1
| ev_if_t : forall c t e s s1 r s2, ev c s (Some (VBool true)) s1 -> ev t s1 r s2 -> ev (EIf c t e) s r s2
| ev_if_f : forall c t e s s1 r s2, ev c s (Some (VBool false)) s1 -> ev e s1 r s2 -> ev (EIf c t (Some e)) s r s2
| ev_if_n : forall c t s s1, ev c s (Some (VBool false)) s1 -> ev (EIf c t None) s (Some (VBool true)) s1
| ev_if_p : forall c t e s v s1, ev c s (Some v) s1 -> (forall b, v <> VBool b) -> ev (EIf c t e) s None s1
| ev_if_p1 : forall c t e s s1, ev c s None s1 -> ev (EIf c t e) s None s1
| ev_while_f : forall c b s s1, ev c s (Some (VBool false)) s1 -> ev (EWhile c b) s (Some (VBool true)) s1
| ev_while_t : forall c b s s1 v s2 r s3, ev c s (Some (VBool true)) s1 -> ev b s1 (Some v) s2 -> ev (EWhile c b) s2 r s3 -> ev (EWhile c b) s r s3
| ev_while_pb : forall c b s s1 s2, ev c s (Some (VBool true)) s1 -> ev b s1 None s2 -> ev (EWhile c b) s None s2
| ev_while_p : forall c b s v s1, ev c s (Some v) s1 -> (forall b, v <> VBool b) -> ev (EWhile c b) s None s1
| ev_while_p1 : forall c b s s1, ev c s None s1 -> ev (EWhile c b) s None s1
| ev_call : forall f ps body args vs s s1 v s2, hm_get fns f = Some (ps, body) -> evs args s (Some vs) s1 -> length ps <= length vs ->
    ev body (fresh s1) (Some v) s2 -> ev (ECall f args) s (Some v) (mk_state (env s1) (out s2))
| ev_call_pb : forall f ps body args vs s s1 s2, hm_get fns f = Some (ps, body) -> evs args s (Some vs) s1 -> length ps <= length vs ->
    ev body (fresh s1) None s2 -> ev (ECall f args) s None s2
| ev_call_few : forall f ps body args vs s s1, hm_get fns f = Some (ps, body) -> evs args s (Some vs) s1 -> length vs < length ps ->
    ev (ECall f args) s None (fresh s1)
| ev_call_p : forall f ps body args s s1, hm_get fns f = Some (ps, body) -> evs args s None s1 -> ev (ECall f args) s None s1
| ev_call_u : forall f args s, hm_get fns f = None -> ev (ECall f args) s None s
| ev_lab : forall f ps body args vs s s1 v s2, hm_get fns f = Some (ps, body) -> evs (map snd args) s (Some vs) s1 ->
    ev body (fresh s1) (Some v) s2 -> ev (ELabelled f args) s (Some v) (mk_state (env s1) (out s2))
| ev_lab_pb : forall f ps body args vs s s1 s2, hm_get fns f = Some (ps, body) -> evs (map snd args) s (Some vs) s1 ->
    ev body (fresh s1) None s2 -> ev (ELabelled f args) s None s2
| ev_lab_p : forall f ps body args s s1, hm_get fns f = Some (ps, body) -> evs (map snd args) s None s1 -> ev (ELabelled f args) s None s1
| ev_lab_u : forall f args s, hm_get fns f = None -> ev (ELabelled f args) s None s
with evs : list expr -> state -> option (list value) -> state -> Prop :=
| evs_nil : forall s, evs [] s (Some []) s
| evs_cons : forall e es v vs s s1 s2, ev e s (Some v) s1 -> evs es s1 (Some vs) s2 -> evs (e :: es) s (Some (v :: vs)) s2
| evs_p1 : forall e es s s1, ev e s None s1 -> evs (e :: es) s None s1
| evs_p2 : forall e es v s s1 s2, ev e s (Some v) s1 -> evs es s1 None s2 -> evs (e :: es) s None s2.
End Ev.
Scheme ev_mut := Induction for ev Sort Prop with evs_mut := Induction for evs Sort Prop.
Combined Scheme ev_ind2 from ev_mut, evs_mut.
