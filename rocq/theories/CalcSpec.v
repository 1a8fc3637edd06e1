(** The language of the calculator, stated without the parsers: the textbook left-recursive expression grammar. *)
From Verif Require Import Base Text Calc.
Set Implicit Arguments.
Local Open Scope string_scope.
Local Open Scope nat_scope.
Local Open Scope list_scope.

Definition cws (s : list N) : Prop := Forall (fun x => In x [32; 9; 13; 10]%N) s.
(** 1*digit [ "." 1*digit ] *)
Definition c_digits (s : list N) : Prop := Forall digit s /\ s <> [].
Definition c_number (s : list N) : Prop := c_digits s \/ exists a b, s = a ++ bs "." ++ b /\ c_digits a /\ c_digits b.

Section Grammar.
Variable D : Type.
Variable dec : list N -> D + unit.
(** factor = number / "+" factor / "-" factor / *ws "(" *ws expr *ws ")" *ws
    term   = factor / term *ws ("*" / "/") *ws factor
    expr   = term / expr *ws ("+" / "-") *ws term *)
Inductive g_factor : cexpr D -> list N -> Prop :=
| gf_num : forall s d, c_number s -> dec s = inl d -> g_factor (CValue d) s
| gf_plus : forall e s, g_factor e s -> g_factor (CPlus e) (bs "+" ++ s)
| gf_minus : forall e s, g_factor e s -> g_factor (CMinus e) (bs "-" ++ s)
| gf_paren : forall a b c d e s, cws a -> cws b -> g_expr e s -> cws c -> cws d ->
    g_factor (CParen e) (a ++ bs "(" ++ b ++ s ++ c ++ bs ")" ++ d)
with g_term : cexpr D -> list N -> Prop :=
| gt_one : forall e s, g_factor e s -> g_term e s
| gt_mul : forall l r s a b t, g_term l s -> cws a -> cws b -> g_factor r t -> g_term (CMultiply l r) (s ++ a ++ bs "*" ++ b ++ t)
| gt_div : forall l r s a b t, g_term l s -> cws a -> cws b -> g_factor r t -> g_term (CDivide l r) (s ++ a ++ bs "/" ++ b ++ t)
with g_expr : cexpr D -> list N -> Prop :=
| ge_one : forall e s, g_term e s -> g_expr e s
| ge_add : forall l r s a b t, g_expr l s -> cws a -> cws b -> g_term r t -> g_expr (CAdd l r) (s ++ a ++ bs "+" ++ b ++ t)
| ge_sub : forall l r s a b t, g_expr l s -> cws a -> cws b -> g_term r t -> g_expr (CSub l r) (s ++ a ++ bs "-" ++ b ++ t).
End Grammar.
Scheme g_factor_mut := Induction for g_factor Sort Prop
  with g_term_mut := Induction for g_term Sort Prop
  with g_expr_mut := Induction for g_expr Sort Prop.
Combined Scheme calc_ind3 from g_factor_mut, g_term_mut, g_expr_mut.
