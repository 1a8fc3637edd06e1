(** The toys language, stated without the parsers: which text spells which tree.
    Tokens carry the white space behind them.  [strict = true] adds what a text must satisfy besides the rules to be understood
    as this tree: names in expressions do not begin with f or true, "in" and "to" are set off from the word before them, a
    statement that starts with a call does not call println, while, if or for, and an if without else is not followed by a text
    that begins with else. *)
From Verif Require Import Base Text JsonSpec Toys.
From Coq Require Import ZArith.
Set Implicit Arguments.
Local Open Scope string_scope.
Local Open Scope nat_scope.
Local Open Scope list_scope.

(** A token and white space. *)
Definition lx (t s : list N) : Prop := exists w, s = t ++ w /\ ws w.
Definition letter_ (x : N) : Prop := (65 <= x <= 90 \/ 97 <= x <= 122 \/ x = 95)%N.
Definition word (x : name) : Prop := exists c t, x = c :: t /\ letter_ c /\ Forall (fun y => letter_ y \/ digit y) t.
Definition int_text (z : Z) (s : list N) : Prop :=
  exists ds, digits1 ds /\ (s = ds /\ z = Z.of_N (dec_value ds) \/ s = bs "-" ++ ds /\ z = (- Z.of_N (dec_value ds))%Z) /\
    (- 2 ^ 63 <= z <= 2 ^ 63 - 1)%Z.
Definition bool_text (b : bool) : list N := if b then bs "true" else bs "false".
Definition op_text (o : op) : list N :=
  match o with
  | OMul => bs "*" | ODiv => bs "/" | OMod => bs "%" | OAdd => bs "+" | OSub => bs "-"
  | OAnd => bs "&&" | OOr => bs "||" | OLe => bs "<=" | OGe => bs ">=" | OLt => bs "<" | OGt => bs ">" | OEq => bs "==" | ONe => bs "!="
  end.
(** * and / bind tightest, then %, then + and -, then all others. *)
Definition op_level (o : op) : nat :=
  match o with OMul | ODiv => 0 | OMod => 1 | OAdd | OSub => 2 | _ => 3 end.
Definition begins (p s : list N) : Prop := exists t, s = p ++ t.
Definition plain_name (x : name) : Prop := ~ begins (bs "f") x /\ ~ begins (bs "true") x.

Section Grammar.
Variable strict : bool.

(** [lev k e s]: s spells e, whose operators outside of parentheses have levels below k. *)
Inductive lev : nat -> expr -> list N -> Prop :=
| l_paren : forall e o s c, lx (bs "(") o -> lev 4 e s -> lx (bs ")") c -> lev 0 (EParen e) (o ++ s ++ c)
| l_int : forall z t s, int_text z t -> lx t s -> lev 0 (EInt z) s
| l_str : forall v t s, g_string false false v t -> lx t s -> lev 0 (EString v) s
| l_call : forall f n o s c es, word f -> lx f n -> lx (bs "(") o -> args es s -> lx (bs ")") c -> lev 0 (ECall f es) (n ++ o ++ s ++ c)
| l_labelled : forall f n o s c ps, word f -> lx f n -> lx (bs "[") o -> params ps s -> lx (bs "]") c -> lev 0 (ELabelled f ps) (n ++ o ++ s ++ c)
| l_array : forall o s c es, lx (bs "[") o -> args es s -> lx (bs "]") c -> lev 0 (EArray es) (o ++ s ++ c)
| l_bool : forall b s, lx (bool_text b) s -> lev 0 (EBool b) s
| l_sym : forall x s, word x -> (strict = true -> plain_name x) -> lx x s -> lev 0 (ESymbol x) s
| l_up : forall k e s, lev k e s -> k < 4 -> lev (S k) e s
| l_bin : forall k o l r s t u, lev (S k) l s -> op_level o = k -> lx (op_text o) t -> lev k r u -> lev (S k) (EBin o l r) (s ++ t ++ u)
(** Arguments, with commas between them and possibly one more at the end. *)
with args : list expr -> list N -> Prop :=
| a_none : args [] []
| a_some : forall e es s t, lev 4 e s -> more_args es t -> args (e :: es) (s ++ t)
with more_args : list expr -> list N -> Prop :=
| ma_end : more_args [] []
| ma_comma : forall c, lx (bs ",") c -> more_args [] c
| ma_more : forall c e es s t, lx (bs ",") c -> lev 4 e s -> more_args es t -> more_args (e :: es) (c ++ s ++ t)
(** name=value, the same; no white space between = and a string. *)
with params : list (name * expr) -> list N -> Prop :=
| p_some : forall x n w e s ps t, word x -> lx x n -> ws w -> (w <> [] -> ~ begins [34%N] s) -> lev 4 e s -> more_params ps t ->
    params ((x, e) :: ps) (n ++ bs "=" ++ w ++ s ++ t)
with more_params : list (name * expr) -> list N -> Prop :=
| mp_end : more_params [] []
| mp_comma : forall c, lx (bs ",") c -> more_params [] c
| mp_more : forall c ps s, lx (bs ",") c -> params ps s -> more_params ps (c ++ s).

(** The function called first. *)
Fixpoint head_call (e : expr) : option name :=
  match e with ECall f _ => Some f | EBin _ l _ => head_call l | _ => None end.
Definition no_keyword_call (e : expr) : Prop :=
  forall f, head_call e = Some f -> f <> bs "println" /\ f <> bs "while" /\ f <> bs "if" /\ f <> bs "for".
(** [s] ends with white space. *)
Definition spaced_off (s : list N) : Prop := exists t w, s = t ++ w /\ ws w /\ w <> [].

(** Statements.  [open]: the statement ends with an if that has no else. *)
Inductive stm : bool -> expr -> list N -> Prop :=
| s_println : forall e k o s c m, lx (bs "println") k -> lx (bs "(") o -> lev 4 e s -> lx (bs ")") c -> lx (bs ";") m ->
    stm false (EPrintln e) (k ++ o ++ s ++ c ++ m)
| s_while : forall op e b k o s c t, lx (bs "while") k -> lx (bs "(") o -> lev 4 e s -> lx (bs ")") c -> stm op b t ->
    stm op (EWhile e b) (k ++ o ++ s ++ c ++ t)
| s_for : forall op x e1 e2 b k o n i s1 j s2 c t, lx (bs "for") k -> lx (bs "(") o -> word x -> lx x n -> (strict = true -> spaced_off n) ->
    lx (bs "in") i -> lev 4 e1 s1 -> (strict = true -> spaced_off s1) -> lx (bs "to") j -> lev 4 e2 s2 -> lx (bs ")") c -> stm op b t ->
    stm op (for_expr x e1 e2 b) (k ++ o ++ n ++ i ++ s1 ++ j ++ s2 ++ c ++ t)
| s_if : forall op e a k o s c t, lx (bs "if") k -> lx (bs "(") o -> lev 4 e s -> lx (bs ")") c -> stm op a t ->
    stm true (EIf e a None) (k ++ o ++ s ++ c ++ t)
| s_ifelse : forall op op2 e a b k o s c t l u, lx (bs "if") k -> lx (bs "(") o -> lev 4 e s -> lx (bs ")") c -> stm op a t ->
    (strict = true -> op = false) -> lx (bs "else") l -> stm op2 b u -> stm op2 (EIf e a (Some b)) (k ++ o ++ s ++ c ++ t ++ l ++ u)
| s_assign : forall x e n q s m, word x -> lx x n -> lx (bs "=") q -> lev 4 e s -> lx (bs ";") m -> stm false (EAssign x e) (n ++ q ++ s ++ m)
| s_expr : forall e s m, lev 4 e s -> (strict = true -> no_keyword_call e) -> lx (bs ";") m -> stm false e (s ++ m)
| s_block : forall es o s c, lx (bs "{") o -> stms es s -> lx (bs "}") c -> stm false (EBlock es) (o ++ s ++ c)
with stms : list expr -> list N -> Prop :=
| ss_nil : stms [] []
| ss_cons : forall op e es s t, stm op e s -> (strict = true -> op = true -> ~ begins (bs "else") t) -> stms es t -> stms (e :: es) (s ++ t).

(** Parameter names of a function. *)
Inductive names : list name -> list N -> Prop :=
| n_none : names [] []
| n_some : forall x xs n t, word x -> lx x n -> more_names xs t -> names (x :: xs) (n ++ t)
with more_names : list name -> list N -> Prop :=
| mn_end : more_names [] []
| mn_comma : forall c, lx (bs ",") c -> more_names [] c
| mn_more : forall c x xs n t, lx (bs ",") c -> word x -> lx x n -> more_names xs t -> more_names (x :: xs) (c ++ n ++ t).
Inductive def : expr -> list N -> Prop :=
| d_global : forall x e k n q s m, lx (bs "global") k -> word x -> lx x n -> lx (bs "=") q -> lev 4 e s -> lx (bs ";") m ->
    def (EGlobal x e) (k ++ n ++ q ++ s ++ m)
| d_fun : forall f xs es k n o s c p t q, lx (bs "fn") k -> word f -> lx f n -> lx (bs "(") o -> names xs s -> lx (bs ")") c ->
    lx (bs "{") p -> stms es t -> lx (bs "}") q -> def (EFun f xs (EBlock es)) (k ++ n ++ o ++ s ++ c ++ p ++ t ++ q).
Inductive defs : list expr -> list N -> Prop :=
| ds_nil : defs [] []
| ds_cons : forall e es s t, def e s -> defs es t -> defs (e :: es) (s ++ t).
End Grammar.

Scheme lev_mut := Induction for lev Sort Prop
  with args_mut := Induction for args Sort Prop
  with more_args_mut := Induction for more_args Sort Prop
  with params_mut := Induction for params Sort Prop
  with more_params_mut := Induction for more_params Sort Prop.
Combined Scheme lev_ind5 from lev_mut, args_mut, more_args_mut, params_mut, more_params_mut.
Scheme stm_mut := Induction for stm Sort Prop
  with stms_mut := Induction for stms Sort Prop.
Combined Scheme stm_ind2 from stm_mut, stms_mut.
Scheme names_mut := Induction for names Sort Prop
  with more_names_mut := Induction for more_names Sort Prop.
Combined Scheme names_ind2 from names_mut, more_names_mut.
