(** The example calculator: parser/examples/calculator.rs (input &[char]).
    Oracles: [nd] is the class \d of the regex crate (Unicode decimal digits), [dec] is Decimal::from_str, [d_add] ... are the
    operations of rust_decimal on Decimal (None: panic).  The regex engine is modelled for the one pattern used. *)
From Verif Require Import Base Core Comb Text.
Set Implicit Arguments.
Local Open Scope string_scope.
Local Open Scope nat_scope.
Local Open Scope list_scope.

(** calculator.rs 8-18. *)
Inductive cexpr (D : Type) :=
| CValue (d : D)
| CAdd (l r : cexpr D)
| CSub (l r : cexpr D)
| CPlus (e : cexpr D)
| CMinus (e : cexpr D)
| CMultiply (l r : cexpr D)
| CDivide (l r : cexpr D)
| CParen (e : cexpr D).

(** The longest prefix of [s] in the class [f], and what follows. *)
Fixpoint span (f : N -> bool) (s : list N) : list N * list N :=
  match s with
  | [] => ([], [])
  | x :: t => if f x then let '(a, b) := span f t in (x :: a, b) else ([], s)
  end.
(** calculator.rs 143: Regex::captures of ^\d+([.]\d+)? (greedy), group 0. *)
Definition find_decimal (nd : N -> bool) (s : list N) : option (list N) :=
  match span nd s with
  | ([], _) => None
  | (a, r) =>
      match r with
      | x :: r' =>
          if (x =? chr ".")%N then
            match span nd r' with
            | ([], _) => Some a
            | (b, _) => Some (a ++ x :: b)
            end
          else Some a
      | [] => Some a
      end
  end.

Section Calc.
Variable D : Type.
Variable nd : N -> bool.
Variable dec : list N -> D + unit.

(** calculator.rs 38-40. *)
Definition c_space : parser N unit := p_discard (p_many0 (p_elm_of [32; 9; 13; 10]%N)).
(** calculator.rs 142-147. *)
Definition c_value : parser N (cexpr D) := p_map (p_map_res (p_regex (find_decimal nd)) dec) (@CValue D).

Section Recursion.
(** lazy(primary), lazy(expr) *)
Variables primary expr : parser N (cexpr D).
(** calculator.rs 131-140. *)
Definition primary0 : parser N (cexpr D) :=
  p_or
    (p_map
      (p_surround (p_and (p_and c_space (p_elm_ref (chr "("))) c_space) (p_lazy (fun _ => expr))
        (p_and (p_and c_space (p_elm_ref (chr ")"))) c_space))
      (@CParen D))
    c_value.
(** calculator.rs 120-129. *)
Definition unary : parser N (cexpr D) :=
  p_map_panic (p_and (p_or (p_elm_ref (chr "+")) (p_elm_ref (chr "-"))) (p_lazy (fun _ => primary)))
    (fun '(c, e) => if (c =? chr "-")%N then Some (CMinus e) else if (c =? chr "+")%N then Some (CPlus e) else None).
Definition primary_step : parser N (cexpr D) := p_or unary primary0.
End Recursion.

(** calculator.rs 97-104 and 109-116: the operator parsers. *)
Definition mul_op : parser N (cexpr D -> cexpr D -> cexpr D) :=
  p_map_panic (p_skip_right (p_skip_left c_space (p_or (p_elm_ref (chr "*")) (p_elm_ref (chr "/")))) c_space)
    (fun c => if (c =? chr "*")%N then Some (@CMultiply D) else if (c =? chr "/")%N then Some (@CDivide D) else None).
Definition add_op : parser N (cexpr D -> cexpr D -> cexpr D) :=
  p_map_panic (p_skip_right (p_skip_left c_space (p_or (p_elm_ref (chr "+")) (p_elm_ref (chr "-")))) c_space)
    (fun c => if (c =? chr "+")%N then Some (@CAdd D) else if (c =? chr "-")%N then Some (@CSub D) else None).
(** calculator.rs 96-106. *)
Definition multitive (primary : parser N (cexpr D)) : parser N (cexpr D) := p_chain_left1 primary mul_op.
(** calculator.rs 108-118, 42-44. *)
Definition additive (primary : parser N (cexpr D)) : parser N (cexpr D) := p_chain_left1 (multitive primary) add_op.

(** calculator.rs 121 and 134: the recursion through lazy; [fuel] bounds its depth. *)
Fixpoint primary_fuel (fuel : nat) : parser N (cexpr D) :=
  match fuel with
  | 0 => p_diverge
  | S fuel' => primary_step (primary_fuel fuel') (additive (primary_fuel fuel'))
  end.
(** calculator.rs 162-164.  Each level of the recursion consumes a sign or a parenthesis, so this depth is enough
    (CalcFacts.v: [calc_fuel_enough]). *)
Definition calculator_fuel (fuel : nat) : parser N (cexpr D) := p_skip_right (additive (primary_fuel fuel)) p_end.
Definition calculator : parser N (cexpr D) := fun inp off => calculator_fuel (S (length inp)) inp off.

(** calculator.rs 149-160 (None: a Decimal operation panics). *)
Variables d_add d_sub d_mul d_div : D -> D -> option D.
Variable minus_one : D.
Definition bind2 (a b : option D) (f : D -> D -> option D) : option D :=
  match a with Some x => match b with Some y => f x y | None => None end | None => None end.
Fixpoint c_eval (e : cexpr D) : option D :=
  match e with
  | CValue n => Some n
  | CAdd l r => bind2 (c_eval l) (c_eval r) d_add
  | CSub l r => bind2 (c_eval l) (c_eval r) d_sub
  | CMultiply l r => bind2 (c_eval l) (c_eval r) d_mul
  | CDivide l r => bind2 (c_eval l) (c_eval r) d_div
  | CMinus v => bind2 (c_eval v) (Some minus_one) d_mul
  | CPlus v => c_eval v
  | CParen v => c_eval v
  end.
End Calc.
