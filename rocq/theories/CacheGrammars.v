(** The grammars of crond, of toys and of the JSON benchmark with their caches, in the objects of CacheSim.v.  Parts without a cache inside are
    taken from Cron.v, ToysParse.v and Bench.v as they are. *)
From Verif Require Import Base Core Comb Text Json Calc Toys ToysParse Bench Cron CacheSim.
Set Implicit Arguments.
Local Open Scope string_scope.
Local Open Scope nat_scope.
Local Open Scope list_scope.

(** ** crond/src/cron_parser.rs *)
(** 5-12, 14-24, 26-36, 38-45, 47-57, 59-61, 63-65: each .cache() at the end *)
Definition s_min_digit : sobj cexpr := s_cache (s_prim min_digit).
Definition s_hour_digit : sobj cexpr := s_cache (s_prim hour_digit).
Definition s_day_digit : sobj cexpr := s_cache (s_prim day_digit).
Definition s_month_digit : sobj cexpr := s_cache (s_prim month_digit).
Definition s_day_of_week_digit : sobj cexpr := s_cache (s_prim day_of_week_digit).
Definition s_day_of_week_text : sobj cexpr := s_cache (s_prim day_of_week_text).
Definition s_asterisk : sobj cexpr := s_cache (s_prim asterisk).
(** 67-69 *)
Definition s_per (x : sobj cexpr) : sobj cexpr := s_skip_left (s_prim (p_elm (chr "/"))) x.
(** 71-79 *)
Definition s_asterisk_per (x : sobj cexpr) : sobj cexpr :=
  s_cache (s_attempt (s_map (s_and s_asterisk (s_per x)) (fun x => PerExpr (fst x) (snd x)))).
(** 81-86 *)
Definition s_range_per (x : sobj cexpr) : sobj cexpr := s_map (s_opt (s_per x)) (fun e => match e with None => NoOp | Some s => s end).
(** 88-95 *)
Definition s_clist (x : sobj cexpr) : sobj cexpr :=
  s_attempt (s_map (s_many1_sep x (s_prim (p_elm (chr ",")))) (fun e => match e with [x] => x | _ => ListExpr e end)).
(** 97-107: the macro repeats the expression that builds the parser, so the three parsers are different objects *)
Definition s_crange (x : sobj cexpr) : sobj cexpr :=
  s_attempt (s_map (s_and (s_and (s_skip_right x (s_prim (p_elm (chr "-")))) x) (s_range_per x)) (fun e => RangeExpr (fst (fst e)) (snd (fst e)) (snd e))).
(** 109-113 *)
Definition s_digit_instruction (x : sobj cexpr) : sobj cexpr := s_or (s_or (s_clist (s_or (s_crange x) x)) (s_asterisk_per x)) s_asterisk.
(** 121 *)
Definition s_dow : sobj cexpr := s_or s_day_of_week_text s_day_of_week_digit.
(** 115-129 *)
Definition s_instruction : sobj cexpr :=
  let sp := s_prim (p_elm (chr " ")) in
  s_map
    (s_and (s_skip_right (s_and (s_skip_right (s_and (s_skip_right (s_and (s_skip_right
      (s_digit_instruction s_min_digit) sp) (s_digit_instruction s_hour_digit)) sp)
      (s_digit_instruction s_day_digit)) sp) (s_digit_instruction s_month_digit)) sp)
      (s_digit_instruction s_dow))
    (fun '((((mins, hours), days), months), day_of_weeks) => Cron mins hours days months day_of_weeks).
(** 134-138 *)
Definition s_cron_parse (a : nat -> nat) (input : list N) : outcome N cexpr := s_parse (s_skip_right s_instruction (s_prim p_end)) a input.

(** ** toys/src/parsers.rs; [k] is the length of the input (the fuel of ToysParse.v) *)
Section Toys.
Variable nd : N -> bool.
Variable k : nat.
Definition s_spaced {A} (g : sobj A) : sobj A := s_skip_right (s_skip_left (s_prim t_space) g) (s_prim t_space).
(** 166-171, 264-271, 273-305, 307-309 *)
Definition s_integer : sobj expr := s_cache (s_prim (t_integer nd)).
Definition s_bool_literal : sobj expr := s_cache (s_prim bool_literal).
Definition s_string_literal : sobj expr := s_cache (s_prim string_literal).
Definition s_identifier : sobj expr := s_cache (s_prim identifier).
(** 173-182 *)
Definition s_multitive (g : sobj expr) : sobj expr :=
  s_cache (s_name (s_chain_left1 g (s_prim (p_map_panic (p_or (t_sym (chr "*")) (t_sym (chr "/")))
    (fun c => if (c =? chr "*")%N then Some (EBin OMul) else if (c =? chr "/")%N then Some (EBin ODiv) else None)))) "multitive").
(** 184-192 *)
Definition s_moditive (g : sobj expr) : sobj expr :=
  s_cache (s_name (s_chain_left1 (s_multitive g) (s_prim (p_map_panic (t_sym (chr "%"))
    (fun c => if (c =? chr "%")%N then Some (EBin OMod) else None)))) "moditive").
(** 194-203 *)
Definition s_additive (g : sobj expr) : sobj expr :=
  s_cache (s_name (s_chain_left1 (s_moditive g) (s_prim (p_map_panic (p_or (t_sym (chr "+")) (t_sym (chr "-")))
    (fun c => if (c =? chr "+")%N then Some (EBin OAdd) else if (c =? chr "-")%N then Some (EBin OSub) else None)))) "additive").
(** 205-241 *)
Definition s_comparative (g : sobj expr) : sobj expr := s_cache (s_name (s_chain_left1 (s_additive g) (s_prim comp_op)) "comparative").
(** 156-158 *)
Definition s_expression_of (g : sobj expr) : sobj expr := s_cache (s_name (s_comparative g) "expression").
Section Primary.
Variable expression : sobj expr.
(** 243-247 *)
Definition s_function_call : sobj expr :=
  s_cache (s_name (s_attempt (s_spaced
    (s_map (s_and (s_prim ident) (s_surround (s_prim lparen) (s_many0_sep (s_lazy expression) (s_prim comma)) (s_prim rparen)))
      (fun '(f, args) => ECall f args)))) "function_call").
(** 249-254 *)
Definition s_param : sobj (name * expr) := s_map (s_and (s_skip_right (s_prim ident) (s_prim (p_elm_ref (chr "=")))) (s_lazy expression)) (fun v => v).
Definition s_labelled_call : sobj expr :=
  s_cache (s_name (s_attempt (s_spaced
    (s_map (s_and (s_prim ident) (s_surround (s_prim lbracket) (s_many1_sep s_param (s_prim comma)) (s_prim rbracket)))
      (fun '(f, args) => ELabelled f args)))) "labelled_call").
(** 256-262 *)
Definition s_array_literal : sobj expr :=
  s_cache (s_name (s_spaced (s_map (s_surround (s_prim lbracket) (s_many0_sep (s_lazy expression) (s_prim comma)) (s_prim rbracket)) EArray)) "array_literal").
(** 312 *)
Definition s_paren_expr : sobj expr := s_map (s_skip_right (s_skip_left (s_prim lparen) (s_lazy expression)) (s_prim rparen)) EParen.
(** 311-324: two caches, one inside and one outside the name *)
Definition s_primary_of : sobj expr :=
  s_cache (s_name (s_cache
    (s_or (s_or (s_or (s_or (s_or (s_or (s_or s_paren_expr s_integer) s_string_literal) s_function_call) s_labelled_call) s_array_literal)
      s_bool_literal) s_identifier)) "primary").
End Primary.
Fixpoint s_expression_fuel (fuel : nat) : sobj expr :=
  match fuel with
  | 0 => s_prim p_diverge
  | S fuel' => s_expression_of (s_primary_of (s_expression_fuel fuel'))
  end.
Definition s_expression : sobj expr := s_expression_fuel (S k).
Section Line.
Variable line : sobj expr.
(** 160-164 *)
Definition s_println : sobj expr :=
  s_cache (s_name (s_attempt (s_spaced
    (s_map (s_skip_right (s_skip_left (s_prim (p_tag (bs "println"))) (s_surround (s_prim lparen) (s_lazy s_expression) (s_prim rparen))) (s_prim semi_colon))
      EPrintln))) "println").
(** 102-107 *)
Definition s_while : sobj expr :=
  s_cache (s_name (s_attempt (s_spaced
    (s_map (s_and (s_skip_left (s_prim (t_tag (bs "while"))) (s_surround (s_prim lparen) (s_lazy s_expression) (s_prim rparen))) (s_lazy line))
      (fun '(c, b) => EWhile c b)))) "while").
(** 109-131 *)
Definition s_for_params : sobj (name * expr * expr) :=
  s_skip_right (s_skip_right
    (s_and (s_skip_right
      (s_and (s_skip_right (s_skip_left (s_prim lparen) (s_prim ident)) (s_prim (p_and (p_and t_space (p_tag (bs "in"))) t_space))) s_expression)
      (s_prim (t_tag (bs "to")))) s_expression)
    (s_prim t_space)) (s_prim rparen).
Definition s_for : sobj expr :=
  s_cache (s_name (s_attempt (s_spaced
    (s_map (s_and (s_skip_left (s_prim (p_skip_right (p_tag (bs "for")) t_space)) s_for_params) (s_lazy line))
      (fun '(x, from, to_, body) => for_expr x from to_ body)))) "for").
(** 133-139: line() is called, not lazy(line): the objects belong to the if object, which lazy builds anew *)
Definition s_if : sobj expr :=
  s_cache (s_name (s_attempt (s_spaced
    (s_map
      (s_and
        (s_and (s_skip_right (s_skip_left (s_skip_left (s_prim (p_skip_right (p_tag (bs "if")) t_space)) (s_prim lparen)) s_expression) (s_prim rparen)) line)
        (s_opt (s_skip_left (s_prim (t_tag (bs "else"))) line)))
      (fun '(c, t, e) => EIf c t e)))) "if").
(** 141-144 *)
Definition s_block : sobj expr :=
  s_cache (s_name (s_spaced (s_map (s_surround (s_prim lbrace) (s_many0 (s_lazy line)) (s_prim rbrace)) EBlock)) "block").
(** 146-150 *)
Definition s_assignment : sobj expr :=
  s_cache (s_name (s_attempt (s_spaced
    (s_map (s_skip_right (s_and (s_skip_right (s_prim ident) (s_prim (t_tag (bs "=")))) s_expression) (s_prim semi_colon)) (fun '(x, e) => EAssign x e)))) "assignment").
(** 152-154 *)
Definition s_expression_line : sobj expr := s_cache (s_name (s_attempt (s_skip_right s_expression (s_prim semi_colon))) "expression_line").
(** 97-100 *)
Definition s_line_of : sobj expr :=
  s_cache (s_name (s_spaced
    (s_or (s_or (s_or (s_or (s_or (s_or s_println (s_lazy s_while)) (s_lazy s_if)) (s_lazy s_for)) s_assignment) s_expression_line) s_block)) "line").
End Line.
Fixpoint s_line_fuel (fuel : nat) : sobj expr :=
  match fuel with
  | 0 => s_prim p_diverge
  | S fuel' => s_line_of (s_line_fuel fuel')
  end.
Definition s_line : sobj expr := s_line_fuel (S k).
(** 93-95 *)
Definition s_lines : sobj (list expr) := s_skip_right (s_skip_right (s_many1 s_line) (s_prim t_space)) (s_prim p_end).
(** 76-82 *)
Definition s_function_definition : sobj expr :=
  s_cache (s_name (s_spaced
    (s_map
      (s_and (s_prim (p_and (p_skip_right (p_skip_left (p_skip_left (p_skip_left t_space (p_tag (bs "fn"))) t_space) ident) t_space)
        (p_surround lparen (p_many0_sep ident comma) rparen))) (s_block s_line))
      (fun '(f, args, body) => EFun f args body))) "function definition").
(** 84-91 *)
Definition s_global_variable_definition : sobj expr :=
  s_cache (s_name (s_spaced
    (s_map (s_skip_right (s_and (s_prim (p_skip_right (p_skip_left (t_tag (bs "global")) ident) (t_tag (bs "=")))) s_expression) (s_prim semi_colon))
      (fun '(x, e) => EGlobal x e))) "global variable definition").
(** 72-74, 68-70 *)
Definition s_top_level_definition : sobj expr := s_name (s_or s_global_variable_definition s_function_definition) "top level definition".
Definition s_program : sobj expr := s_skip_left (s_prim t_space) (s_map (s_many0 s_top_level_definition) EProgram).
End Toys.

(** ** parser/benches/oni_comb_json.rs *)
Section Bench.
Variable F : Type.
Variable f64_parse : list N -> F + unit.
Variable lossy : list N -> list N.
Variable bytes : bool.
(** 62-69: the cache is between the quotes *)
Definition s_string_char : sobj (list N) :=
  s_map (s_surround (s_prim (p_elm_ref 34)) (s_cache (s_prim (p_many0 (p_or (char_string false) (utf16_string false))))) (s_prim (p_elm_ref 34))) (@List.concat N).
(** 182-186 *)
Definition s_string_byte : sobj (list N) :=
  s_map (s_skip_right (s_skip_left (s_prim (p_elm 34)) (s_cache (s_prim (p_collect (p_many0 (p_or regular_byte escape_byte)))))) (s_prim (p_elm 34))) lossy.
Definition s_b_string : sobj (list N) := if bytes then s_string_byte else s_string_char.
Section Recursion.
Variable value : sobj (json F).
(** 72-81; 194-203 *)
Definition s_b_array : sobj (list (json F)) :=
  s_surround (s_prim (p_skip_right (b_elm bytes (chr "[")) b_space)) (s_many0_sep (s_cache (s_lazy value)) (s_prim (b_sep bytes)))
    (s_prim (p_skip_left b_space (b_elm bytes (chr "]")))).
(** 85; 208 *)
Definition s_b_member : sobj (list N * json F) :=
  s_and (s_skip_right (s_skip_right (s_skip_right (s_cache s_b_string) (s_prim b_space)) (s_prim (b_elm bytes (chr ":")))) (s_prim b_space)) (s_cache (s_lazy value)).
(** 83-98; 206-221 *)
Definition s_b_object : sobj (list (list N * json F)) :=
  s_map
    (s_surround (s_prim (p_skip_right (b_elm bytes (chr "{")) b_space)) (s_many0_sep s_b_member (s_prim (b_sep bytes)))
      (s_prim (p_skip_left b_space (b_elm bytes (chr "}")))))
    (@hm_collect (json F)).
(** 104-114; 224-236 *)
Definition s_b_value_step : sobj (json F) :=
  s_skip_right
    (s_or (s_or (s_or (s_or (s_or
      (s_cache (s_map s_b_string (fun s => JStr F s)))
      (s_cache (s_prim (p_map (b_number f64_parse bytes) (@JNum F)))))
      (s_cache (s_prim (p_map (b_boolean bytes) (fun b => JBool F b)))))
      (s_cache (s_prim (p_map (b_lit bytes (bs "null")) (fun _ => JNull F)))))
      (s_cache (s_map s_b_array (@JArray F))))
      (s_cache (s_map s_b_object (@JObject F))))
    (s_prim b_space).
End Recursion.
Fixpoint s_b_value (fuel : nat) : sobj (json F) :=
  match fuel with
  | 0 => s_prim p_diverge
  | S fuel' => s_b_value_step (s_b_value fuel')
  end.
(** 116-119; 239-242; [k] is the length of the input *)
Definition s_bench (k : nat) : sobj (json F) := s_skip_right (s_skip_left (s_prim b_space) (s_cache (s_b_value (S k)))) (s_prim p_end).
End Bench.
