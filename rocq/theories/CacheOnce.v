(** The grammars of CacheGrammars.v with the caches left open, and caches that must not answer. *)
From Verif Require Import Base Core Comb Text Json Calc Toys ToysParse Bench Cron CacheSim CacheGrammars.
Set Implicit Arguments.
Local Open Scope string_scope.
Local Open Scope nat_scope.
Local Open Scope list_scope.

(** cache_parsers_impl.rs 13-37, but a panic where the source finds an answer in its map (29-33). *)
Definition s_once {A} (g : sobj A) : sobj A :=
  @SObj A (list (nat * nat * outcome N A) * st g) ([], st0 g) (fun a inp off '(t, (m, s)) =>
    match m_find m (a t) (last_offset_or0 off) with
    | Some _ => (Panic, (S t, (m, s)))
    | None => let '(o, (t', s')) := srun g a inp off (S t, s) in (o, (t', ((a t, last_offset_or0 off, o) :: m, s')))
    end).

Section Open.
Variable cache : forall A, sobj A -> sobj A.
Arguments cache {A} _.
(** ** crond/src/cron_parser.rs *)
(** crond/src/cron_parser.rs 5-12, 14-24, 26-36, 38-45, 47-57, 59-61, 63-65: each .cache() at the end *)
Definition h_min_digit : sobj cexpr := cache (s_prim min_digit).
Definition h_hour_digit : sobj cexpr := cache (s_prim hour_digit).
Definition h_day_digit : sobj cexpr := cache (s_prim day_digit).
Definition h_month_digit : sobj cexpr := cache (s_prim month_digit).
Definition h_day_of_week_digit : sobj cexpr := cache (s_prim day_of_week_digit).
Definition h_day_of_week_text : sobj cexpr := cache (s_prim day_of_week_text).
Definition h_asterisk : sobj cexpr := cache (s_prim asterisk).
(** crond/src/cron_parser.rs 67-69 *)
Definition h_per (x : sobj cexpr) : sobj cexpr := s_skip_left (s_prim (p_elm (chr "/"))) x.
(** crond/src/cron_parser.rs 71-79 *)
Definition h_asterisk_per (x : sobj cexpr) : sobj cexpr :=
  cache (s_attempt (s_map (s_and h_asterisk (h_per x)) (fun x => PerExpr (fst x) (snd x)))).
(** crond/src/cron_parser.rs 81-86 *)
Definition h_range_per (x : sobj cexpr) : sobj cexpr := s_map (s_opt (h_per x)) (fun e => match e with None => NoOp | Some s => s end).
(** crond/src/cron_parser.rs 88-95 *)
Definition h_clist (x : sobj cexpr) : sobj cexpr :=
  s_attempt (s_map (s_many1_sep x (s_prim (p_elm (chr ",")))) (fun e => match e with [x] => x | _ => ListExpr e end)).
(** crond/src/cron_parser.rs 97-107: the macro repeats the expression that builds the parser, so the three parsers are different objects *)
Definition h_crange (x : sobj cexpr) : sobj cexpr :=
  s_attempt (s_map (s_and (s_and (s_skip_right x (s_prim (p_elm (chr "-")))) x) (h_range_per x)) (fun e => RangeExpr (fst (fst e)) (snd (fst e)) (snd e))).
(** crond/src/cron_parser.rs 109-113 *)
Definition h_digit_instruction (x : sobj cexpr) : sobj cexpr := s_or (s_or (h_clist (s_or (h_crange x) x)) (h_asterisk_per x)) h_asterisk.
(** crond/src/cron_parser.rs 121 *)
Definition h_dow : sobj cexpr := s_or h_day_of_week_text h_day_of_week_digit.
(** crond/src/cron_parser.rs 115-129 *)
Definition h_instruction : sobj cexpr :=
  let sp := s_prim (p_elm (chr " ")) in
  s_map
    (s_and (s_skip_right (s_and (s_skip_right (s_and (s_skip_right (s_and (s_skip_right
      (h_digit_instruction h_min_digit) sp) (h_digit_instruction h_hour_digit)) sp)
      (h_digit_instruction h_day_digit)) sp) (h_digit_instruction h_month_digit)) sp)
      (h_digit_instruction h_dow))
    (fun '((((mins, hours), days), months), day_of_weeks) => Cron mins hours days months day_of_weeks).

(** ** toys/src/parsers.rs; [k] is the length of the input (the fuel of ToysParse.v) *)
Section Toys.
Variable nd : N -> bool.
Variable k : nat.
Definition h_spaced {A} (g : sobj A) : sobj A := s_skip_right (s_skip_left (s_prim t_space) g) (s_prim t_space).
(** toys/src/parsers.rs 166-171, 264-271, 273-305, 307-309 *)
Definition h_integer : sobj expr := cache (s_prim (t_integer nd)).
Definition h_bool_literal : sobj expr := cache (s_prim bool_literal).
Definition h_string_literal : sobj expr := cache (s_prim string_literal).
Definition h_identifier : sobj expr := cache (s_prim identifier).
(** toys/src/parsers.rs 173-182 *)
Definition h_multitive (g : sobj expr) : sobj expr :=
  cache (s_name (s_chain_left1 g (s_prim (p_map_panic (p_or (t_sym (chr "*")) (t_sym (chr "/")))
    (fun c => if (c =? chr "*")%N then Some (EBin OMul) else if (c =? chr "/")%N then Some (EBin ODiv) else None)))) "multitive").
(** toys/src/parsers.rs 184-192 *)
Definition h_moditive (g : sobj expr) : sobj expr :=
  cache (s_name (s_chain_left1 (h_multitive g) (s_prim (p_map_panic (t_sym (chr "%"))
    (fun c => if (c =? chr "%")%N then Some (EBin OMod) else None)))) "moditive").
(** toys/src/parsers.rs 194-203 *)
Definition h_additive (g : sobj expr) : sobj expr :=
  cache (s_name (s_chain_left1 (h_moditive g) (s_prim (p_map_panic (p_or (t_sym (chr "+")) (t_sym (chr "-")))
    (fun c => if (c =? chr "+")%N then Some (EBin OAdd) else if (c =? chr "-")%N then Some (EBin OSub) else None)))) "additive").
(** toys/src/parsers.rs 205-241 *)
Definition h_comparative (g : sobj expr) : sobj expr := cache (s_name (s_chain_left1 (h_additive g) (s_prim comp_op)) "comparative").
(** toys/src/parsers.rs 156-158 *)
Definition h_expression_of (g : sobj expr) : sobj expr := cache (s_name (h_comparative g) "expression").
Section Primary.
Variable expression : sobj expr.
(** toys/src/parsers.rs 243-247 *)
Definition h_function_call : sobj expr :=
  cache (s_name (s_attempt (h_spaced
    (s_map (s_and (s_prim ident) (s_surround (s_prim lparen) (s_many0_sep (s_lazy expression) (s_prim comma)) (s_prim rparen)))
      (fun '(f, args) => ECall f args)))) "function_call").
(** toys/src/parsers.rs 249-254 *)
Definition h_param : sobj (name * expr) := s_map (s_and (s_skip_right (s_prim ident) (s_prim (p_elm_ref (chr "=")))) (s_lazy expression)) (fun v => v).
Definition h_labelled_call : sobj expr :=
  cache (s_name (s_attempt (h_spaced
    (s_map (s_and (s_prim ident) (s_surround (s_prim lbracket) (s_many1_sep h_param (s_prim comma)) (s_prim rbracket)))
      (fun '(f, args) => ELabelled f args)))) "labelled_call").
(** toys/src/parsers.rs 256-262 *)
Definition h_array_literal : sobj expr :=
  cache (s_name (h_spaced (s_map (s_surround (s_prim lbracket) (s_many0_sep (s_lazy expression) (s_prim comma)) (s_prim rbracket)) EArray)) "array_literal").
(** toys/src/parsers.rs 312 *)
Definition h_paren_expr : sobj expr := s_map (s_skip_right (s_skip_left (s_prim lparen) (s_lazy expression)) (s_prim rparen)) EParen.
(** toys/src/parsers.rs 311-324: two caches, one inside and one outside the name *)
Definition h_primary_of : sobj expr :=
  cache (s_name (cache
    (s_or (s_or (s_or (s_or (s_or (s_or (s_or h_paren_expr h_integer) h_string_literal) h_function_call) h_labelled_call) h_array_literal)
      h_bool_literal) h_identifier)) "primary").
End Primary.
Fixpoint h_expression_fuel (fuel : nat) : sobj expr :=
  match fuel with
  | 0 => s_prim p_diverge
  | S fuel' => h_expression_of (h_primary_of (h_expression_fuel fuel'))
  end.
Definition h_expression : sobj expr := h_expression_fuel (S k).
Section Line.
Variable line : sobj expr.
(** toys/src/parsers.rs 160-164 *)
Definition h_println : sobj expr :=
  cache (s_name (s_attempt (h_spaced
    (s_map (s_skip_right (s_skip_left (s_prim (p_tag (bs "println"))) (s_surround (s_prim lparen) (s_lazy h_expression) (s_prim rparen))) (s_prim semi_colon))
      EPrintln))) "println").
(** toys/src/parsers.rs 102-107 *)
Definition h_while : sobj expr :=
  cache (s_name (s_attempt (h_spaced
    (s_map (s_and (s_skip_left (s_prim (t_tag (bs "while"))) (s_surround (s_prim lparen) (s_lazy h_expression) (s_prim rparen))) (s_lazy line))
      (fun '(c, b) => EWhile c b)))) "while").
(** toys/src/parsers.rs 109-131 *)
Definition h_for_params : sobj (name * expr * expr) :=
  s_skip_right (s_skip_right
    (s_and (s_skip_right
      (s_and (s_skip_right (s_skip_left (s_prim lparen) (s_prim ident)) (s_prim (p_and (p_and t_space (p_tag (bs "in"))) t_space))) h_expression)
      (s_prim (t_tag (bs "to")))) h_expression)
    (s_prim t_space)) (s_prim rparen).
Definition h_for : sobj expr :=
  cache (s_name (s_attempt (h_spaced
    (s_map (s_and (s_skip_left (s_prim (p_skip_right (p_tag (bs "for")) t_space)) h_for_params) (s_lazy line))
      (fun '(x, from, to_, body) => for_expr x from to_ body)))) "for").
(** toys/src/parsers.rs 133-139: line() is called, not lazy(line): the objects belong to the if object, which lazy builds anew *)
Definition h_if : sobj expr :=
  cache (s_name (s_attempt (h_spaced
    (s_map
      (s_and
        (s_and (s_skip_right (s_skip_left (s_skip_left (s_prim (p_skip_right (p_tag (bs "if")) t_space)) (s_prim lparen)) h_expression) (s_prim rparen)) line)
        (s_opt (s_skip_left (s_prim (t_tag (bs "else"))) line)))
      (fun '(c, t, e) => EIf c t e)))) "if").
(** toys/src/parsers.rs 141-144 *)
Definition h_block : sobj expr :=
  cache (s_name (h_spaced (s_map (s_surround (s_prim lbrace) (s_many0 (s_lazy line)) (s_prim rbrace)) EBlock)) "block").
(** toys/src/parsers.rs 146-150 *)
Definition h_assignment : sobj expr :=
  cache (s_name (s_attempt (h_spaced
    (s_map (s_skip_right (s_and (s_skip_right (s_prim ident) (s_prim (t_tag (bs "=")))) h_expression) (s_prim semi_colon)) (fun '(x, e) => EAssign x e)))) "assignment").
(** toys/src/parsers.rs 152-154 *)
Definition h_expression_line : sobj expr := cache (s_name (s_attempt (s_skip_right h_expression (s_prim semi_colon))) "expression_line").
(** toys/src/parsers.rs 97-100 *)
Definition h_line_of : sobj expr :=
  cache (s_name (h_spaced
    (s_or (s_or (s_or (s_or (s_or (s_or h_println (s_lazy h_while)) (s_lazy h_if)) (s_lazy h_for)) h_assignment) h_expression_line) h_block)) "line").
End Line.
Fixpoint h_line_fuel (fuel : nat) : sobj expr :=
  match fuel with
  | 0 => s_prim p_diverge
  | S fuel' => h_line_of (h_line_fuel fuel')
  end.
Definition h_line : sobj expr := h_line_fuel (S k).
(** toys/src/parsers.rs 93-95 *)
Definition h_lines : sobj (list expr) := s_skip_right (s_skip_right (s_many1 h_line) (s_prim t_space)) (s_prim p_end).
(** toys/src/parsers.rs 76-82 *)
Definition h_function_definition : sobj expr :=
  cache (s_name (h_spaced
    (s_map
      (s_and (s_prim (p_and (p_skip_right (p_skip_left (p_skip_left (p_skip_left t_space (p_tag (bs "fn"))) t_space) ident) t_space)
        (p_surround lparen (p_many0_sep ident comma) rparen))) (h_block h_line))
      (fun '(f, args, body) => EFun f args body))) "function definition").
(** toys/src/parsers.rs 84-91 *)
Definition h_global_variable_definition : sobj expr :=
  cache (s_name (h_spaced
    (s_map (s_skip_right (s_and (s_prim (p_skip_right (p_skip_left (t_tag (bs "global")) ident) (t_tag (bs "=")))) h_expression) (s_prim semi_colon))
      (fun '(x, e) => EGlobal x e))) "global variable definition").
(** toys/src/parsers.rs 72-74, 68-70 *)
Definition h_top_level_definition : sobj expr := s_name (s_or h_global_variable_definition h_function_definition) "top level definition".
Definition h_program : sobj expr := s_skip_left (s_prim t_space) (s_map (s_many0 h_top_level_definition) EProgram).
End Toys.

(** ** parser/benches/oni_comb_json.rs *)
Section Bench.
Variable F : Type.
Variable f64_parse : list N -> F + unit.
Variable lossy : list N -> list N.
Variable bytes : bool.
(** parser/benches/oni_comb_json.rs 62-69: the cache is between the quotes *)
Definition h_string_char : sobj (list N) :=
  s_map (s_surround (s_prim (p_elm_ref 34)) (cache (s_prim (p_many0 (p_or (char_string false) (utf16_string false))))) (s_prim (p_elm_ref 34))) (@List.concat N).
(** parser/benches/oni_comb_json.rs 182-186 *)
Definition h_string_byte : sobj (list N) :=
  s_map (s_skip_right (s_skip_left (s_prim (p_elm 34)) (cache (s_prim (p_collect (p_many0 (p_or regular_byte escape_byte)))))) (s_prim (p_elm 34))) lossy.
Definition h_b_string : sobj (list N) := if bytes then h_string_byte else h_string_char.
Section Recursion.
Variable value : sobj (json F).
(** parser/benches/oni_comb_json.rs 72-81; 194-203 *)
Definition h_b_array : sobj (list (json F)) :=
  s_surround (s_prim (p_skip_right (b_elm bytes (chr "[")) b_space)) (s_many0_sep (cache (s_lazy value)) (s_prim (b_sep bytes)))
    (s_prim (p_skip_left b_space (b_elm bytes (chr "]")))).
(** parser/benches/oni_comb_json.rs 85; 208 *)
Definition h_b_member : sobj (list N * json F) :=
  s_and (s_skip_right (s_skip_right (s_skip_right (cache h_b_string) (s_prim b_space)) (s_prim (b_elm bytes (chr ":")))) (s_prim b_space)) (cache (s_lazy value)).
(** parser/benches/oni_comb_json.rs 83-98; 206-221 *)
Definition h_b_object : sobj (list (list N * json F)) :=
  s_map
    (s_surround (s_prim (p_skip_right (b_elm bytes (chr "{")) b_space)) (s_many0_sep h_b_member (s_prim (b_sep bytes)))
      (s_prim (p_skip_left b_space (b_elm bytes (chr "}")))))
    (@hm_collect (json F)).
(** parser/benches/oni_comb_json.rs 104-114; 224-236 *)
Definition h_b_value_step : sobj (json F) :=
  s_skip_right
    (s_or (s_or (s_or (s_or (s_or
      (cache (s_map h_b_string (fun s => JStr F s)))
      (cache (s_prim (p_map (b_number f64_parse bytes) (@JNum F)))))
      (cache (s_prim (p_map (b_boolean bytes) (fun b => JBool F b)))))
      (cache (s_prim (p_map (b_lit bytes (bs "null")) (fun _ => JNull F)))))
      (cache (s_map h_b_array (@JArray F))))
      (cache (s_map h_b_object (@JObject F))))
    (s_prim b_space).
End Recursion.
Fixpoint h_b_value (fuel : nat) : sobj (json F) :=
  match fuel with
  | 0 => s_prim p_diverge
  | S fuel' => h_b_value_step (h_b_value fuel')
  end.
(** parser/benches/oni_comb_json.rs 116-119; 239-242; [k] is the length of the input *)
Definition h_bench (k : nat) : sobj (json F) := s_skip_right (s_skip_left (s_prim b_space) (cache (h_b_value (S k)))) (s_prim p_end).
End Bench.
End Open.

(** With the caches of the source these are the objects of CacheGrammars.v. *)
Ltac same := cbv beta zeta delta [h_min_digit h_hour_digit h_day_digit h_month_digit h_day_of_week_digit h_day_of_week_text h_asterisk h_per h_asterisk_per h_range_per h_clist h_crange h_digit_instruction h_dow h_instruction h_spaced h_integer h_bool_literal h_string_literal h_identifier h_multitive h_moditive h_additive h_comparative h_expression_of h_function_call h_param h_labelled_call h_array_literal h_paren_expr h_primary_of h_expression h_println h_while h_for_params h_for h_if h_block h_assignment h_expression_line h_line_of h_line h_lines h_function_definition h_global_variable_definition h_top_level_definition h_program h_string_char h_string_byte h_b_string h_b_array h_b_member h_b_object h_b_value_step h_bench s_min_digit s_hour_digit s_day_digit s_month_digit s_day_of_week_digit s_day_of_week_text s_asterisk s_per s_asterisk_per s_range_per s_clist s_crange s_digit_instruction s_dow s_instruction s_spaced s_integer s_bool_literal s_string_literal s_identifier s_multitive s_moditive s_additive s_comparative s_expression_of s_function_call s_param s_labelled_call s_array_literal s_paren_expr s_primary_of s_expression s_println s_while s_for_params s_for s_if s_block s_assignment s_expression_line s_line_of s_line s_lines s_function_definition s_global_variable_definition s_top_level_definition s_program s_string_char s_string_byte s_b_string s_b_array s_b_member s_b_object s_b_value_step s_bench]; reflexivity.
Lemma h_instruction_cache : h_instruction (@s_cache) = s_instruction.
Proof. same. Qed.
Lemma h_expression_cache : forall nd n, h_expression_fuel (@s_cache) nd n = s_expression_fuel nd n.
Proof. intros nd. induction n as [|n IH]; [reflexivity|]. cbn [h_expression_fuel s_expression_fuel]. rewrite IH. same. Qed.
Lemma h_line_cache : forall nd k n, h_line_fuel (@s_cache) nd k n = s_line_fuel nd k n.
Proof.
  intros nd k. induction n as [|n IH]; [reflexivity|]. cbn [h_line_fuel s_line_fuel]. rewrite IH.
  unfold h_line_of, s_line_of, h_println, h_while, h_if, h_for, h_for_params, h_assignment, h_expression_line, h_expression.
  rewrite h_expression_cache. same.
Qed.
Lemma h_program_cache : forall nd k, h_program (@s_cache) nd k = s_program nd k.
Proof.
  intros nd k. unfold h_program, h_top_level_definition, h_global_variable_definition, h_function_definition, h_line, h_expression.
  rewrite h_line_cache, h_expression_cache. same.
Qed.
Lemma h_b_value_cache : forall F (f64_parse : list N -> F + unit) lossy bytes n, h_b_value (@s_cache) f64_parse lossy bytes n = s_b_value f64_parse lossy bytes n.
Proof. intros F f64_parse lossy bytes. induction n as [|n IH]; [reflexivity|]. cbn [h_b_value s_b_value]. rewrite IH. same. Qed.
Lemma h_bench_cache : forall F (f64_parse : list N -> F + unit) lossy bytes k, h_bench (@s_cache) f64_parse lossy bytes k = s_bench f64_parse lossy bytes k.
Proof. intros F f64_parse lossy bytes k. unfold h_bench. rewrite h_b_value_cache. same. Qed.
Lemma h_lines_cache : forall nd k, h_lines (@s_cache) nd k = s_lines nd k.
Proof. intros nd k. unfold h_lines, h_line. rewrite h_line_cache. same. Qed.
