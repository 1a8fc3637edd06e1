(** The toys parsers with the nesting of their calls: toys/src/parsers.rs as in ToysParse.v, over the combinators of Measure.v.  The nesting is in
    proportion to the opening brackets and the operators of the text.
    Every .cache() is taken as one that does not know the place yet: it then calls the parser inside it (cache_parsers_impl.rs 13-37).  A cache
    that knows the place calls nothing and returns the same (C111), so the numbers of calls and their nesting are at most those given here. *)
From Verif Require Import Base Core Comb Closure RepFacts LitFacts Text Json Calc Toys ToysParse Measure MeasureJson MeasureUri.
From Coq Require Import ZArith Lia.
Set Implicit Arguments.
Local Open Scope string_scope.
Local Open Scope nat_scope.
Local Open Scope list_scope.

(** cache_parsers_impl.rs 13-37: the closure of a cache, and the parser it asks *)
Definition m_cache {A} (g : mparser A) : mparser A := m_id g.

(** toys/src/parsers.rs 64-66 *)
Definition mt_space : mparser unit := m_discard (m_many0 (m_elm_of [32; 9; 13; 10]%N)).
(** toys/src/parsers.rs 8-63: space() * p - space() *)
Definition mt_spaced {A} (g : mparser A) : mparser A := m_skip_right (m_skip_left mt_space g) mt_space.
(** toys/src/parsers.rs 8-10 *)
Definition mt_ident : mparser name := mt_spaced (m_leaf (p_regex find_ident)).
(** toys/src/parsers.rs 12-30 *)
Definition mt_sym (c : N) : mparser N := mt_spaced (m_elm_ref c).
(** toys/src/parsers.rs 32-62 *)
Definition mt_tag (s : list N) : mparser (list N) := mt_spaced (m_tag s).
Definition mt_lbracket := mt_tag (bs "[").
Definition mt_rbracket := mt_tag (bs "]").
Definition mt_lbrace := mt_tag (bs "{").
Definition mt_rbrace := mt_tag (bs "}").
Definition mt_lparen := mt_tag (bs "(").
Definition mt_rparen := mt_tag (bs ")").
Definition mt_comma := mt_tag (bs ",").
Definition mt_semi_colon := mt_tag (bs ";").

Section Measured.
Variable nd : N -> bool.

(** toys/src/parsers.rs 166-171 *)
Definition mt_integer : mparser expr :=
  m_cache (m_name (mt_spaced (m_map (m_map_res (m_leaf (p_regex (find_integer nd))) parse_i64) EInt)) "integer").
(** toys/src/parsers.rs 264-271 *)
Definition mt_bool_literal : mparser expr :=
  m_cache (m_name (mt_spaced (m_map_panic (m_or (m_attempt (m_tag (bs "true"))) (m_tag (bs "false")))
    (hm_get [(bs "true", EBool true); (bs "false", EBool false)]))) "bool_literal").
(** toys/src/parsers.rs 273-305: the closures are those of the example json_char.rs (MeasureJson.v), with one map at the end *)
Definition mt_string : mparser expr :=
  m_map (m_surround (m_elm_ref 34) (m_many0 (m_or (mj_char_string false) (mj_utf16_string false))) (m_elm_ref 34)) (fun ss => EString (List.concat ss)).
Definition mt_string_literal : mparser expr := m_cache (m_name (m_attempt mt_string) "string_literal").
(** toys/src/parsers.rs 307-309 *)
Definition mt_identifier : mparser expr := m_cache (m_name (m_map mt_ident ESymbol) "identifier").

(** toys/src/parsers.rs 173-182; [m_id]: debug("operator") *)
Definition mt_mul_op : mparser (expr -> expr -> expr) :=
  m_map_panic (m_id (m_or (mt_sym (chr "*")) (mt_sym (chr "/"))))
    (fun c => if (c =? chr "*")%N then Some (EBin OMul) else if (c =? chr "/")%N then Some (EBin ODiv) else None).
Definition mt_multitive (primary : mparser expr) : mparser expr := m_cache (m_name (m_chain_left1 primary mt_mul_op) "multitive").
(** toys/src/parsers.rs 184-192 *)
Definition mt_mod_op : mparser (expr -> expr -> expr) :=
  m_map_panic (mt_sym (chr "%")) (fun c => if (c =? chr "%")%N then Some (EBin OMod) else None).
Definition mt_moditive (primary : mparser expr) : mparser expr := m_cache (m_name (m_chain_left1 (mt_multitive primary) mt_mod_op) "moditive").
(** toys/src/parsers.rs 194-203 *)
Definition mt_add_op : mparser (expr -> expr -> expr) :=
  m_map_panic (m_or (mt_sym (chr "+")) (mt_sym (chr "-")))
    (fun c => if (c =? chr "+")%N then Some (EBin OAdd) else if (c =? chr "-")%N then Some (EBin OSub) else None).
Definition mt_additive (primary : mparser expr) : mparser expr := m_cache (m_name (m_chain_left1 (mt_moditive primary) mt_add_op) "additive").
(** toys/src/parsers.rs 206-237 *)
Definition mt_comp_op : mparser (expr -> expr -> expr) :=
  m_map_panic
    (mt_spaced
      (m_or (m_or (m_or (m_or (m_or (m_or (m_or
        (m_attempt (m_tag (bs "&&"))) (m_attempt (m_tag (bs "||")))) (m_attempt (m_tag (bs "<="))))
        (m_attempt (m_tag (bs ">=")))) (m_attempt (m_tag (bs "<")))) (m_attempt (m_tag (bs ">"))))
        (m_attempt (m_tag (bs "!=")))) (m_tag (bs "=="))))
    (hm_get [(bs "&&", EBin OAnd); (bs "||", EBin OOr); (bs "<=", EBin OLe); (bs ">=", EBin OGe); (bs "<", EBin OLt);
             (bs ">", EBin OGt); (bs "==", EBin OEq); (bs "!=", EBin ONe)]).
(** toys/src/parsers.rs 205-241 *)
Definition mt_comparative (primary : mparser expr) : mparser expr :=
  m_cache (m_name (m_chain_left1 (mt_additive primary) mt_comp_op) "comparative").
(** toys/src/parsers.rs 156-158 *)
Definition mt_expression_of (primary : mparser expr) : mparser expr := m_cache (m_name (mt_comparative primary) "expression").

Section Primary.
(** lazy(expression) *)
Variable expression : mparser expr.
(** toys/src/parsers.rs 243-247 *)
Definition mt_function_call : mparser expr :=
  m_cache (m_name (m_attempt (mt_spaced
    (m_map (m_and mt_ident (m_surround mt_lparen (m_many0_sep (m_lazy expression) mt_comma) mt_rparen))
      (fun '(f, args) => ECall f args)))) "function_call").
(** toys/src/parsers.rs 249-254 *)
Definition mt_param : mparser (name * expr) :=
  m_map (m_and (m_skip_right mt_ident (m_elm_ref (chr "="))) (m_lazy expression)) (fun v => v).
Definition mt_labelled_call : mparser expr :=
  m_cache (m_name (m_attempt (mt_spaced
    (m_map (m_and mt_ident (m_surround mt_lbracket (m_many1_sep mt_param mt_comma) mt_rbracket))
      (fun '(f, args) => ELabelled f args)))) "labelled_call").
(** toys/src/parsers.rs 256-262 *)
Definition mt_array_literal : mparser expr :=
  m_cache (m_name (mt_spaced (m_map (m_surround mt_lbracket (m_many0_sep (m_lazy expression) mt_comma) mt_rbracket) EArray)) "array_literal").
(** toys/src/parsers.rs 312 *)
Definition mt_paren_expr : mparser expr :=
  m_map (m_skip_right (m_skip_left mt_lparen (m_lazy expression)) mt_rparen) EParen.
(** toys/src/parsers.rs 311-324 *)
Definition mt_primary_of : mparser expr :=
  m_cache (m_name (m_cache
    (m_or (m_or (m_or (m_or (m_or (m_or (m_or mt_paren_expr mt_integer) mt_string_literal) mt_function_call) mt_labelled_call) mt_array_literal)
      mt_bool_literal) mt_identifier)) "primary").
End Primary.

(** toys/src/parsers.rs 104, 162, 244, 250, 257 and 312: the recursion through lazy(expression); [fuel] bounds its depth. *)
Fixpoint mt_expression_fuel (fuel : nat) : mparser expr :=
  match fuel with
  | 0 => fun _ _ => (Diverge, Meas 0 0)
  | S fuel' => mt_expression_of (mt_primary_of (mt_expression_fuel fuel'))
  end.
(** toys/src/parsers.rs 156-158 *)
Definition mt_expression : mparser expr := fun inp off => mt_expression_fuel (S (length inp)) inp off.

Section Line.
(** lazy(line) *)
Variable line : mparser expr.
(** toys/src/parsers.rs 160-164 *)
Definition mt_println : mparser expr :=
  m_cache (m_name (m_attempt (mt_spaced
    (m_map (m_skip_right (m_skip_left (m_tag (bs "println")) (m_surround mt_lparen (m_lazy mt_expression) mt_rparen)) mt_semi_colon)
      EPrintln))) "println").
(** toys/src/parsers.rs 102-107 *)
Definition mt_while : mparser expr :=
  m_cache (m_name (m_attempt (mt_spaced
    (m_map (m_and (m_skip_left (mt_tag (bs "while")) (m_surround mt_lparen (m_lazy mt_expression) mt_rparen)) (m_lazy line))
      (fun '(c, b) => EWhile c b)))) "while").
(** toys/src/parsers.rs 109-131; [m_id]: debug("params") *)
Definition mt_for_params : mparser (name * expr * expr) :=
  m_skip_right (m_skip_right
    (m_and (m_skip_right
      (m_and (m_skip_right (m_skip_left mt_lparen mt_ident) (m_and (m_and mt_space (m_tag (bs "in"))) mt_space)) mt_expression)
      (mt_tag (bs "to"))) mt_expression)
    mt_space) mt_rparen.
Definition mt_for : mparser expr :=
  m_cache (m_name (m_attempt (mt_spaced
    (m_map (m_and (m_skip_left (m_skip_right (m_tag (bs "for")) mt_space) (m_id mt_for_params)) (m_lazy line))
      (fun '(x, from, to_, body) => for_expr x from to_ body)))) "for").
(** toys/src/parsers.rs 133-139 *)
Definition mt_if_head : mparser expr :=
  m_skip_right (m_skip_left (m_skip_left (m_skip_right (m_tag (bs "if")) mt_space) mt_lparen) mt_expression) mt_rparen.
Definition mt_if : mparser expr :=
  m_cache (m_name (m_attempt (mt_spaced
    (m_map (m_and (m_and mt_if_head line) (m_opt (m_skip_left (mt_tag (bs "else")) line)))
      (fun '(c, t, e) => EIf c t e)))) "if").
(** toys/src/parsers.rs 141-144 *)
Definition mt_block : mparser expr :=
  m_cache (m_name (mt_spaced (m_map (m_surround mt_lbrace (m_many0 (m_lazy line)) mt_rbrace) EBlock)) "block").
(** toys/src/parsers.rs 146-150 *)
Definition mt_assignment : mparser expr :=
  m_cache (m_name (m_attempt (mt_spaced
    (m_map (m_skip_right (m_and (m_skip_right mt_ident (mt_tag (bs "="))) mt_expression) mt_semi_colon) (fun '(x, e) => EAssign x e)))) "assignment").
(** toys/src/parsers.rs 152-154 *)
Definition mt_expression_line : mparser expr := m_cache (m_name (m_attempt (m_skip_right mt_expression mt_semi_colon)) "expression_line").
(** toys/src/parsers.rs 97-100 *)
Definition mt_line_of : mparser expr :=
  m_cache (m_name (mt_spaced
    (m_or (m_or (m_or (m_or (m_or (m_or mt_println (m_lazy mt_while)) (m_lazy mt_if)) (m_lazy mt_for)) mt_assignment) mt_expression_line) mt_block))
    "line").
End Line.
(** toys/src/parsers.rs 105, 114, 142 and 133-139: the recursion through lazy(line) and, in if, line(); [fuel] bounds its depth. *)
Fixpoint mt_line_fuel (fuel : nat) : mparser expr :=
  match fuel with
  | 0 => fun _ _ => (Diverge, Meas 0 0)
  | S fuel' => mt_line_of (mt_line_fuel fuel')
  end.
(** toys/src/parsers.rs 97-100 *)
Definition mt_line : mparser expr := fun inp off => mt_line_fuel (S (length inp)) inp off.
(** toys/src/parsers.rs 93-95 *)
Definition mt_lines : mparser (list expr) := m_skip_right (m_skip_right (m_many1 mt_line) mt_space) (m_leaf p_end).

(** toys/src/parsers.rs 76-82 *)
Definition mt_function_definition : mparser expr :=
  m_cache (m_name (mt_spaced
    (m_map
      (m_and (m_and (m_skip_right (m_skip_left (m_skip_left (m_skip_left mt_space (m_tag (bs "fn"))) mt_space) mt_ident) mt_space)
        (m_surround mt_lparen (m_many0_sep mt_ident mt_comma) mt_rparen)) (mt_block mt_line))
      (fun '(f, args, body) => EFun f args body))) "function definition").
(** toys/src/parsers.rs 84-91 *)
Definition mt_global : mparser expr :=
  m_cache (m_name (mt_spaced
    (m_map (m_skip_right (m_and (m_skip_right (m_skip_left (mt_tag (bs "global")) mt_ident) (mt_tag (bs "="))) mt_expression) mt_semi_colon)
      (fun '(x, e) => EGlobal x e))) "global variable definition").
(** toys/src/parsers.rs 72-74 *)
Definition mt_top_level_definition : mparser expr := m_name (m_or mt_global mt_function_definition) "top level definition".
(** toys/src/parsers.rs 68-70; [m_id]: map(Rc::new) *)
Definition mt_program : mparser expr := m_skip_left mt_space (m_id (m_map (m_many0 mt_top_level_definition) EProgram)).

(** ** The outcomes are those of ToysParse.v *)
Lemma er_cache : forall A (g : mparser A) p, erases g p -> erases (m_cache g) p.
Proof. intros A g p H. now apply er_id. Qed.
Ltac et1 := first [match goal with |- erases (m_cache _) _ => apply er_cache end | er_step | apply er_lazy | apply er_many0_sep | apply er_chain_left1 | apply er_leaf].
Ltac et := repeat et1.
Lemma et_space : erases mt_space t_space.
Proof. unfold mt_space, t_space. et. Qed.
Lemma et_spaced : forall A (g : mparser A) p, erases g p -> erases (mt_spaced g) (spaced p).
Proof. intros A g p H. unfold mt_spaced, spaced. apply er_skip_right; [apply er_skip_left; [apply et_space|exact H]|apply et_space]. Qed.
Ltac ets := repeat first [apply et_spaced | apply et_space | et1].
Lemma et_ident : erases mt_ident ident.
Proof. apply et_spaced, er_leaf. Qed.
Lemma et_tag : forall s, erases (mt_tag s) (t_tag s).
Proof. intros s. apply et_spaced, er_leaf. Qed.
Lemma et_sym : forall c, erases (mt_sym c) (t_sym c).
Proof. intros c. apply et_spaced, er_leaf. Qed.
Lemma et_integer : erases mt_integer (t_integer nd).
Proof. unfold mt_integer, t_integer. ets. Qed.
Lemma et_bool_literal : erases mt_bool_literal bool_literal.
Proof. unfold mt_bool_literal, bool_literal. ets. Qed.
Lemma et_string_literal : erases mt_string_literal string_literal.
Proof.
  unfold mt_string_literal, string_literal. apply er_cache, er_name, er_attempt. intros inp off. pose proof (er_string false inp off) as H. unfold mj_string, mt_string, m_map, m_one in *.
  destruct (m_surround _ _ _ inp off) as [o m]. cbn [fst] in *. unfold p_map in *. rewrite <- H. now destruct o.
Qed.
Lemma et_identifier : erases mt_identifier identifier.
Proof. unfold mt_identifier, identifier. apply er_cache, er_name, er_map, et_ident. Qed.
Lemma et_comp_op : erases mt_comp_op comp_op.
Proof. unfold mt_comp_op, comp_op. ets. Qed.
Lemma et_expression_of : forall g p, erases g p -> erases (mt_expression_of g) (expression_of p).
Proof.
  intros g p H. unfold mt_expression_of, expression_of, mt_comparative, comparative, mt_additive, t_additive, mt_moditive, t_moditive, mt_multitive, t_multitive, mt_mul_op, mt_mod_op, mt_add_op.
  repeat first [apply et_comp_op | apply et_sym | et1].
Qed.
Section Er.
Variables (g : mparser expr) (p : parser N expr).
Hypothesis E : erases g p.
Lemma et_function_call : erases (mt_function_call g) (function_call p).
Proof. unfold mt_function_call, function_call. repeat first [apply et_ident | apply et_tag | apply et_spaced | et1]. Qed.
Lemma et_labelled_call : erases (mt_labelled_call g) (labelled_call p).
Proof. unfold mt_labelled_call, labelled_call, mt_param, param. repeat first [apply et_ident | apply et_tag | apply et_spaced | et1]. Qed.
Lemma et_array_literal : erases (mt_array_literal g) (array_literal p).
Proof. unfold mt_array_literal, array_literal. repeat first [apply et_ident | apply et_tag | apply et_spaced | et1]. Qed.
Lemma et_paren_expr : erases (mt_paren_expr g) (paren_expr p).
Proof. unfold mt_paren_expr, paren_expr. repeat first [apply et_ident | apply et_tag | apply et_spaced | et1]. Qed.
Lemma et_primary_of : erases (mt_primary_of g) (primary_of nd p).
Proof.
  unfold mt_primary_of, primary_of. apply er_cache, er_name, er_cache.
  repeat apply er_or; [apply et_paren_expr|apply et_integer|apply et_string_literal|apply et_function_call|apply et_labelled_call|apply et_array_literal|apply et_bool_literal|apply et_identifier].
Qed.
End Er.
Lemma et_expression_fuel : forall n, erases (mt_expression_fuel n) (expression_fuel nd n).
Proof. induction n as [|n IH]; [intros inp off; reflexivity|]. cbn [mt_expression_fuel expression_fuel]. now apply et_expression_of, et_primary_of. Qed.
Lemma et_expression : erases mt_expression (expression nd).
Proof. intros inp off. apply et_expression_fuel. Qed.
Section ErLine.
Variables (g : mparser expr) (p : parser N expr).
Hypothesis E : erases g p.
Ltac el := repeat first [apply et_expression | apply et_ident | apply et_tag | apply et_spaced | apply et_space | et1].
Lemma et_block : erases (mt_block g) (block p).
Proof. unfold mt_block, block. el. Qed.
Lemma et_println : erases mt_println (println nd).
Proof. unfold mt_println, println. el. Qed.
Lemma et_while : erases (mt_while g) (while_p nd p).
Proof. unfold mt_while, while_p. el. Qed.
Lemma et_if : erases (mt_if g) (if_p nd p).
Proof. unfold mt_if, mt_if_head, if_p. el. Qed.
Lemma et_for : erases (mt_for g) (for_p nd p).
Proof. unfold mt_for, mt_for_params, for_p, for_params. el. Qed.
Lemma et_assignment : erases mt_assignment (assignment nd).
Proof. unfold mt_assignment, assignment. el. Qed.
Lemma et_expression_line : erases mt_expression_line (expression_line nd).
Proof. unfold mt_expression_line, expression_line. el. Qed.
Lemma et_line_of : erases (mt_line_of g) (line_of nd p).
Proof.
  unfold mt_line_of, line_of. apply er_cache, er_name, et_spaced. repeat apply er_or; try apply er_lazy;
    [apply et_println|apply et_while|apply et_if|apply et_for|apply et_assignment|apply et_expression_line|apply et_block].
Qed.
End ErLine.
Lemma et_line_fuel : forall n, erases (mt_line_fuel n) (line_fuel nd n).
Proof. induction n as [|n IH]; [intros inp off; reflexivity|]. cbn [mt_line_fuel line_fuel]. now apply et_line_of. Qed.
Lemma et_line : erases mt_line (line nd).
Proof. intros inp off. apply et_line_fuel. Qed.
Lemma et_lines : erases mt_lines (lines nd).
Proof. unfold mt_lines, lines. repeat first [apply et_line | apply et_space | et1]. Qed.
Lemma et_program : erases mt_program (program nd).
Proof.
  unfold mt_program, program, mt_top_level_definition, top_level_definition, mt_global, global_variable_definition, mt_function_definition, function_definition.
  repeat first [apply et_expression | apply et_block, et_line | apply et_ident | apply et_tag | apply et_spaced | apply et_space | et1].
Qed.
End Measured.
