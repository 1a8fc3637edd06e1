(** What a toys program writes: toys/src/values.rs 13-24 and the println! of interpreter.rs 113.  The text is a list of characters; ToysPrint.v
    has the text of an i64. *)
From Verif Require Import Base Text Toys ToysSyntax ToysPrint.
Set Implicit Arguments.
Local Open Scope string_scope.
Local Open Scope nat_scope.
Local Open Scope list_scope.

(** <[String]>::join(",") (values.rs 20). *)
Definition join_commas (l : list (list N)) : list N := match l with [] => [] | s :: l' => s ++ flat_map (fun t => bs "," ++ t) l' end.
(** values.rs 13-24. *)
Fixpoint show_value (v : value) : list N :=
  match v with
  | VInt z => show_int z
  | VBool b => bool_text b
  | VString s => s
  | VArray vs => bs "[" ++ join_commas (map show_value vs) ++ bs "]"
  end.
(** interpreter.rs 113: one line for each value, in order. *)
Definition stdout (vs : list value) : list N := flat_map (fun v => show_value v ++ [10%N]) vs.
(** values.rs 41-46; None is the panic. *)
Definition as_string (v : value) : option (list N) := match v with VString s => Some s | _ => None end.
