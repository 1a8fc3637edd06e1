(** The toys parsers: toys/src/parsers.rs (input &[char]).
    .cache() is left out here: the objects with caches (CacheGrammars.v) parse every input as these parsers do (C111).  What .debug writes to the log is in LogToys.v.
    The regex engine is modelled for the two patterns used; [nd] is the class \d of the regex crate (Unicode decimal digits). *)
From Verif Require Import Base Core Comb Text Json Calc Toys.
From Coq Require Import ZArith.
Set Implicit Arguments.
Local Open Scope string_scope.
Local Open Scope nat_scope.
Local Open Scope list_scope.

(** parsers.rs 9: Regex::captures of ^[a-zA-Z_][a-zA-Z0-9_]*, group 0. *)
Definition ident_start (x : N) : bool := in_range 65 90 x || in_range 97 122 x || (x =? chr "_")%N.
Definition ident_char (x : N) : bool := ident_start x || in_range 48 57 x.
Definition find_ident (s : list N) : option (list N) :=
  match s with
  | x :: t => if ident_start x then Some (x :: fst (span ident_char t)) else None
  | [] => None
  end.
(** parsers.rs 167: Regex::captures of ^-?\d+, group 0. *)
Definition find_integer (nd : N -> bool) (s : list N) : option (list N) :=
  match s with
  | x :: t =>
      if (x =? chr "-")%N then match fst (span nd t) with [] => None | a => Some (x :: a) end
      else match fst (span nd s) with [] => None | a => Some a end
  | [] => None
  end.
(** std: i64::from_str. *)
Definition parse_i64 (s : list N) : Z + unit :=
  let '(neg, ds) := match s with
    | x :: t => if (x =? chr "-")%N then (true, t) else if (x =? chr "+")%N then (false, t) else (false, s)
    | [] => (false, [])
    end in
  match ds with
  | [] => inr tt
  | _ =>
      if forallb is_ascii_digit ds then
        let v := Z.of_N (dec_value ds) in
        let z := if neg then (- v)%Z else v in
        if in_i64 z then inl z else inr tt
      else inr tt
  end.

(** parsers.rs 64-66. *)
Definition t_space : parser N unit := p_discard (p_many0 (p_elm_of [32; 9; 13; 10]%N)).
(** parsers.rs 8-63: space() * p - space() *)
Definition spaced {A} (p : parser N A) : parser N A := p_skip_right (p_skip_left t_space p) t_space.
(** parsers.rs 8-10. *)
Definition ident : parser N name := spaced (p_regex find_ident).
(** parsers.rs 12-30. *)
Definition t_sym (c : N) : parser N N := spaced (p_elm_ref c).
(** parsers.rs 32-62. *)
Definition t_tag (s : list N) : parser N (list N) := spaced (p_tag s).
Definition lbracket := t_tag (bs "[").
Definition rbracket := t_tag (bs "]").
Definition lbrace := t_tag (bs "{").
Definition rbrace := t_tag (bs "}").
Definition lparen := t_tag (bs "(").
Definition rparen := t_tag (bs ")").
Definition comma := t_tag (bs ",").
Definition semi_colon := t_tag (bs ";").

Section Parsers.
Variable nd : N -> bool.

(** parsers.rs 166-171. *)
Definition t_integer : parser N expr :=
  p_name (spaced (p_map (p_map_res (p_regex (find_integer nd)) parse_i64) EInt)) "integer".
(** parsers.rs 264-271. *)
Definition bool_literal : parser N expr :=
  p_name (spaced (p_map_panic (p_or (p_attempt (p_tag (bs "true"))) (p_tag (bs "false")))
    (hm_get [(bs "true", EBool true); (bs "false", EBool false)]))) "bool_literal".
(** parsers.rs 273-305: the string parser is the one of the example json_char.rs. *)
Definition string_literal : parser N expr := p_name (p_attempt (p_map (string_p false) EString)) "string_literal".
(** parsers.rs 307-309. *)
Definition identifier : parser N expr := p_name (p_map ident ESymbol) "identifier".

(** parsers.rs 173-182. *)
Definition t_multitive (primary : parser N expr) : parser N expr :=
  p_name (p_chain_left1 primary (p_map_panic (p_or (t_sym (chr "*")) (t_sym (chr "/")))
    (fun c => if (c =? chr "*")%N then Some (EBin OMul) else if (c =? chr "/")%N then Some (EBin ODiv) else None))) "multitive".
(** parsers.rs 184-192. *)
Definition t_moditive (primary : parser N expr) : parser N expr :=
  p_name (p_chain_left1 (t_multitive primary) (p_map_panic (t_sym (chr "%"))
    (fun c => if (c =? chr "%")%N then Some (EBin OMod) else None))) "moditive".
(** parsers.rs 194-203. *)
Definition t_additive (primary : parser N expr) : parser N expr :=
  p_name (p_chain_left1 (t_moditive primary) (p_map_panic (p_or (t_sym (chr "+")) (t_sym (chr "-")))
    (fun c => if (c =? chr "+")%N then Some (EBin OAdd) else if (c =? chr "-")%N then Some (EBin OSub) else None))) "additive".
(** parsers.rs 206-237. *)
Definition comp_op : parser N (expr -> expr -> expr) :=
  p_map_panic
    (spaced
      (p_or (p_or (p_or (p_or (p_or (p_or (p_or
        (p_attempt (p_tag (bs "&&"))) (p_attempt (p_tag (bs "||")))) (p_attempt (p_tag (bs "<="))))
        (p_attempt (p_tag (bs ">=")))) (p_attempt (p_tag (bs "<")))) (p_attempt (p_tag (bs ">"))))
        (p_attempt (p_tag (bs "!=")))) (p_tag (bs "=="))))
    (hm_get [(bs "&&", EBin OAnd); (bs "||", EBin OOr); (bs "<=", EBin OLe); (bs ">=", EBin OGe); (bs "<", EBin OLt);
             (bs ">", EBin OGt); (bs "==", EBin OEq); (bs "!=", EBin ONe)]).
(** parsers.rs 205-241. *)
Definition comparative (primary : parser N expr) : parser N expr :=
  p_name (p_chain_left1 (t_additive primary) comp_op) "comparative".
(** parsers.rs 156-158. *)
Definition expression_of (primary : parser N expr) : parser N expr := p_name (comparative primary) "expression".

Section Primary.
(** lazy(expression) *)
Variable expression : parser N expr.
(** parsers.rs 243-247. *)
Definition function_call : parser N expr :=
  p_name (p_attempt (spaced
    (p_map (p_and ident (p_surround lparen (p_many0_sep (p_lazy (fun _ => expression)) comma) rparen))
      (fun '(f, args) => ECall f args)))) "function_call".
(** parsers.rs 249-254. *)
Definition param : parser N (name * expr) :=
  p_map (p_and (p_skip_right ident (p_elm_ref (chr "="))) (p_lazy (fun _ => expression))) (fun v => v).
Definition labelled_call : parser N expr :=
  p_name (p_attempt (spaced
    (p_map (p_and ident (p_surround lbracket (p_many1_sep param comma) rbracket))
      (fun '(f, args) => ELabelled f args)))) "labelled_call".
(** parsers.rs 256-262. *)
Definition array_literal : parser N expr :=
  p_name (spaced (p_map (p_surround lbracket (p_many0_sep (p_lazy (fun _ => expression)) comma) rbracket) EArray)) "array_literal".
(** parsers.rs 312. *)
Definition paren_expr : parser N expr :=
  p_map (p_skip_right (p_skip_left lparen (p_lazy (fun _ => expression))) rparen) EParen.
(** parsers.rs 311-324. *)
Definition primary_of : parser N expr :=
  p_name
    (p_or (p_or (p_or (p_or (p_or (p_or (p_or paren_expr t_integer) string_literal) function_call) labelled_call) array_literal)
      bool_literal) identifier) "primary".
End Primary.

(** parsers.rs 104, 162, 244, 250, 257 and 312: the recursion through lazy(expression); [fuel] bounds its depth. *)
Fixpoint expression_fuel (fuel : nat) : parser N expr :=
  match fuel with
  | 0 => p_diverge
  | S fuel' => expression_of (primary_of (expression_fuel fuel'))
  end.
(** parsers.rs 156-158.  Each level of the recursion consumes a bracket (ToysParseSound.v: [expression_enough]). *)
Definition expression : parser N expr := fun inp off => expression_fuel (S (length inp)) inp off.

Section Line.
(** lazy(line) *)
Variable line : parser N expr.
(** parsers.rs 160-164. *)
Definition println : parser N expr :=
  p_name (p_attempt (spaced
    (p_map (p_skip_right (p_skip_left (p_tag (bs "println")) (p_surround lparen (p_lazy (fun _ => expression)) rparen)) semi_colon)
      EPrintln))) "println".
(** parsers.rs 102-107. *)
Definition while_p : parser N expr :=
  p_name (p_attempt (spaced
    (p_map (p_and (p_skip_left (t_tag (bs "while")) (p_surround lparen (p_lazy (fun _ => expression)) rparen)) (p_lazy (fun _ => line)))
      (fun '(c, b) => EWhile c b)))) "while".
(** parsers.rs 109-131. *)
Definition for_params : parser N (name * expr * expr) :=
  p_skip_right (p_skip_right
    (p_and (p_skip_right
      (p_and (p_skip_right (p_skip_left lparen ident) (p_and (p_and t_space (p_tag (bs "in"))) t_space)) expression)
      (t_tag (bs "to"))) expression)
    t_space) rparen.
Definition for_p : parser N expr :=
  p_name (p_attempt (spaced
    (p_map (p_and (p_skip_left (p_skip_right (p_tag (bs "for")) t_space) for_params) (p_lazy (fun _ => line)))
      (fun '(x, from, to_, body) => for_expr x from to_ body)))) "for".
(** parsers.rs 133-139. *)
Definition if_p : parser N expr :=
  p_name (p_attempt (spaced
    (p_map
      (p_and
        (p_and (p_skip_right (p_skip_left (p_skip_left (p_skip_right (p_tag (bs "if")) t_space) lparen) expression) rparen) line)
        (p_opt (p_skip_left (t_tag (bs "else")) line)))
      (fun '(c, t, e) => EIf c t e)))) "if".
(** parsers.rs 141-144. *)
Definition block : parser N expr :=
  p_name (spaced (p_map (p_surround lbrace (p_many0 (p_lazy (fun _ => line))) rbrace) EBlock)) "block".
(** parsers.rs 146-150. *)
Definition assignment : parser N expr :=
  p_name (p_attempt (spaced
    (p_map (p_skip_right (p_and (p_skip_right ident (t_tag (bs "="))) expression) semi_colon) (fun '(x, e) => EAssign x e)))) "assignment".
(** parsers.rs 152-154. *)
Definition expression_line : parser N expr := p_name (p_attempt (p_skip_right expression semi_colon)) "expression_line".
(** parsers.rs 97-100. *)
Definition line_of : parser N expr :=
  p_name (spaced
    (p_or (p_or (p_or (p_or (p_or (p_or println (p_lazy (fun _ => while_p))) (p_lazy (fun _ => if_p))) (p_lazy (fun _ => for_p)))
      assignment) expression_line) block)) "line".
End Line.
(** parsers.rs 105, 114, 142 and 133-139: the recursion through lazy(line) and, in if, line(); [fuel] bounds its depth. *)
Fixpoint line_fuel (fuel : nat) : parser N expr :=
  match fuel with
  | 0 => p_diverge
  | S fuel' => line_of (line_fuel fuel')
  end.
(** parsers.rs 97-100.  Each level of the recursion consumes a keyword or a brace (ToysParseSound.v: [line_enough]). *)
Definition line : parser N expr := fun inp off => line_fuel (S (length inp)) inp off.
(** parsers.rs 93-95. *)
Definition lines : parser N (list expr) := p_skip_right (p_skip_right (p_many1 line) t_space) p_end.

(** parsers.rs 76-82. *)
Definition function_definition : parser N expr :=
  p_name (spaced
    (p_map
      (p_and (p_and (p_skip_right (p_skip_left (p_skip_left (p_skip_left t_space (p_tag (bs "fn"))) t_space) ident) t_space)
        (p_surround lparen (p_many0_sep ident comma) rparen)) (block line))
      (fun '(f, args, body) => EFun f args body))) "function definition".
(** parsers.rs 84-91. *)
Definition global_variable_definition : parser N expr :=
  p_name (spaced
    (p_map (p_skip_right (p_and (p_skip_right (p_skip_left (t_tag (bs "global")) ident) (t_tag (bs "="))) expression) semi_colon)
      (fun '(x, e) => EGlobal x e))) "global variable definition".
(** parsers.rs 72-74. *)
Definition top_level_definition : parser N expr := p_name (p_or global_variable_definition function_definition) "top level definition".
(** parsers.rs 68-70. *)
Definition program : parser N expr := p_skip_left t_space (p_map (p_many0 top_level_definition) EProgram).
End Parsers.
