(** Types for the toys language as it is implemented (scopes are dynamic, a call does not change the variables of the caller, an outer
    variable cannot be assigned), and the evaluations that end in an arithmetic error. *)
From Verif Require Import Base Text Toys ToysSpec.
From Coq Require Import ZArith.
Set Implicit Arguments.
Local Open Scope nat_scope.
Local Open Scope list_scope.

Inductive vty := TInt | TBool | TStr | TAny.
Inductive has_ty : value -> vty -> Prop :=
| t_int : forall z, has_ty (VInt z) TInt
| t_bool : forall b, has_ty (VBool b) TBool
| t_str : forall s, has_ty (VString s) TStr
| t_any : forall v, has_ty v TAny.
Definition ctx := list (name * vty).
Definition sub (g g' : ctx) : Prop := forall x T, hm_get g x = Some T -> hm_get g' x = Some T.

Inductive arith_op : op -> Prop := a_add : arith_op OAdd | a_sub : arith_op OSub | a_mul : arith_op OMul | a_div : arith_op ODiv | a_mod : arith_op OMod.
Inductive cmp_op : op -> Prop := c_lt : cmp_op OLt | c_le : cmp_op OLe | c_gt : cmp_op OGt | c_ge : cmp_op OGe | c_eq : cmp_op OEq | c_ne : cmp_op ONe.
Inductive logic_op : op -> Prop := l_and : logic_op OAnd | l_or : logic_op OOr.

(** What a caller has to know of a function: how many arguments it takes, which variables it sees in its callers and of which types, which
    names must not be variables of its callers because it assigns them, and the type of its result. *)
Record signature := Sig { s_arity : nat; s_sees : ctx; s_own : name -> Prop; s_result : vty }.

Section Types.
Variable sigs : name -> option signature.
(** Of the function in which the expression stands: the variables seen in callers, the names that are not variables of callers, and the names that it
    assigns. *)
Variable D : ctx.
Variables K L : name -> Prop.

(** [g] are the variables that have been assigned. *)
Definition sees (g : ctx) (x : name) (T : vty) : Prop := hm_get g x = Some T \/ ~ L x /\ hm_get D x = Some T.
Definition callable (sg : signature) (g : ctx) : Prop :=
  (forall x T, hm_get (s_sees sg) x = Some T -> sees g x T) /\ (forall x, s_own sg x -> K x /\ ~ L x).
(** [ty g e T g']: with the variables [g], [e] has the type [T] and leaves the variables [g']. *)
Inductive ty : ctx -> expr -> vty -> ctx -> Prop :=
| ty_int : forall g z, ty g (EInt z) TInt g
| ty_str : forall g t, ty g (EString t) TStr g
| ty_paren : forall g e T g', ty g e T g' -> ty g (EParen e) T g'
| ty_symbol : forall g x T, sees g x T -> ty g (ESymbol x) T g
| ty_arith : forall g o l r g1 g2, arith_op o -> ty g l TInt g1 -> ty g1 r TInt g2 -> ty g (EBin o l r) TInt g2
| ty_cmp : forall g o l r g1 g2, cmp_op o -> ty g l TInt g1 -> ty g1 r TInt g2 -> ty g (EBin o l r) TBool g2
| ty_logic : forall g o l r g1 g2, logic_op o -> ty g l TBool g1 -> ty g1 r TBool g2 -> ty g (EBin o l r) TBool g2
| ty_assign : forall g x e T g1, L x -> ty g e T g1 -> ty g (EAssign x e) T (hm_set g1 x T)
| ty_block1 : forall g e T g1, ty g e T g1 -> ty g (EBlock [e]) T g1
| ty_block : forall g e es T g1 T' g2, es <> [] -> ty g e T g1 -> ty g1 (EBlock es) T' g2 -> ty g (EBlock (e :: es)) T' g2
| ty_println : forall g e T g1, ty g e T g1 -> ty g (EPrintln e) T g1
| ty_if : forall g c g1 t T1 g2 e T2 g3 T g4, ty g c TBool g1 -> ty g1 t T1 g2 -> ty g1 e T2 g3 -> T = TAny \/ T = T1 /\ T = T2 -> sub g4 g2 -> sub g4 g3 ->
    ty g (EIf c t (Some e)) T g4
| ty_if_then : forall g c g1 t T1 g2 g4, ty g c TBool g1 -> ty g1 t T1 g2 -> sub g4 g2 -> sub g4 g1 -> ty g (EIf c t None) TAny g4
| ty_while : forall g c g1 b T g2, ty g c TBool g1 -> ty g1 b T g2 -> sub g g2 -> ty g (EWhile c b) TBool g1
| ty_call : forall g f sg args g1, sigs f = Some sg -> tys g args g1 -> s_arity sg <= length args -> callable sg g1 -> ty g (ECall f args) (s_result sg) g1
| ty_labelled : forall g f sg args g1, sigs f = Some sg -> tys g (map snd args) g1 -> callable sg g1 -> ty g (ELabelled f args) (s_result sg) g1
with tys : ctx -> list expr -> ctx -> Prop :=
| tys_nil : forall g, tys g [] g
| tys_cons : forall g e es T g1 g2, ty g e T g1 -> tys g1 es g2 -> tys g (e :: es) g2.
End Types.

(** The functions have their signatures. *)
Definition well_typed (sigs : name -> option signature) (fns : functions) : Prop := forall f sg, sigs f = Some sg ->
  exists ps body (L : name -> Prop) g, hm_get fns f = Some (ps, body) /\ length ps <= s_arity sg /\ (forall x, L x -> s_own sg x) /\
    ty sigs (s_sees sg) (s_own sg) L [] body (s_result sg) g.

(** Operands that an operation of i64 panics on. *)
Inductive arith_error (checked : bool) : op -> Z -> Z -> Prop :=
| ae_zero : forall o x, o = ODiv \/ o = OMod -> arith_error checked o x 0
| ae_min : forall o, o = ODiv \/ o = OMod -> arith_error checked o i64_min (-1)
| ae_add : forall x y, checked = true -> ~ i64 (x + y) -> arith_error checked OAdd x y
| ae_sub : forall x y, checked = true -> ~ i64 (x - y) -> arith_error checked OSub x y
| ae_mul : forall x y, checked = true -> ~ i64 (x * y) -> arith_error checked OMul x y.

(** [fails e s]: the evaluation of [e] in [s] comes to an operation with such operands. *)
Section Fails.
Variable checked : bool.
Variable fns : functions.
Notation ev := (ev checked fns).
Notation evs := (evs checked fns).
Inductive fails : expr -> state -> Prop :=
| f_op : forall o l r x y s s1 s2, ev l s (Some (VInt x)) s1 -> ev r s1 (Some (VInt y)) s2 -> arith_error checked o x y -> fails (EBin o l r) s
| f_left : forall o l r s, fails l s -> fails (EBin o l r) s
| f_right : forall o l r a s s1, ev l s (Some a) s1 -> fails r s1 -> fails (EBin o l r) s
| f_paren : forall e s, fails e s -> fails (EParen e) s
| f_assign : forall x e s, fails e s -> fails (EAssign x e) s
| f_println : forall e s, fails e s -> fails (EPrintln e) s
| f_block1 : forall e es s, fails e s -> fails (EBlock (e :: es)) s
| f_block2 : forall e es v s s1, ev e s (Some v) s1 -> fails (EBlock es) s1 -> fails (EBlock (e :: es)) s
| f_if : forall c t e s, fails c s -> fails (EIf c t e) s
| f_then : forall c t e s s1, ev c s (Some (VBool true)) s1 -> fails t s1 -> fails (EIf c t e) s
| f_else : forall c t e s s1, ev c s (Some (VBool false)) s1 -> fails e s1 -> fails (EIf c t (Some e)) s
| f_while : forall c b s, fails c s -> fails (EWhile c b) s
| f_body : forall c b s s1, ev c s (Some (VBool true)) s1 -> fails b s1 -> fails (EWhile c b) s
| f_again : forall c b s s1 v s2, ev c s (Some (VBool true)) s1 -> ev b s1 (Some v) s2 -> fails (EWhile c b) s2 -> fails (EWhile c b) s
| f_args : forall f args s, fails_in args s -> fails (ECall f args) s
| f_call : forall f ps body args vs s s1, hm_get fns f = Some (ps, body) -> evs args s (Some vs) s1 -> fails body (fresh s1) -> fails (ECall f args) s
| f_labelled_args : forall f args s, fails_in (map snd args) s -> fails (ELabelled f args) s
| f_labelled : forall f ps body args vs s s1, hm_get fns f = Some (ps, body) -> evs (map snd args) s (Some vs) s1 -> fails body (fresh s1) -> fails (ELabelled f args) s
with fails_in : list expr -> state -> Prop :=
| fi_first : forall e es s, fails e s -> fails_in (e :: es) s
| fi_next : forall e es v s s1, ev e s (Some v) s1 -> fails_in es s1 -> fails_in (e :: es) s.
End Fails.
