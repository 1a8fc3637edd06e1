(** The calls of the toys parsers nest in proportion to the opening brackets and the operators of the text. *)
From Verif Require Import Base Core Comb Closure RepFacts LitFacts Text Json Calc Toys ToysParse Measure MeasureJson MeasureUri MeasureMarks MeasureToys.
From Coq Require Import ZArith Lia.
Set Implicit Arguments.
Local Open Scope string_scope.
Local Open Scope nat_scope.
Local Open Scope list_scope.

(** The characters that open a bracket or belong to an operator. *)
Definition toys_mark (c : N) : bool := existsb (N.eqb c) (bs "([{+-*/%&|<>!=").
Notation tall := (tall toys_mark).
Notation eats := (eats toys_mark).
Section Heights.
Variable nd : N -> bool.
Ltac flh := repeat first [eassumption | apply fl_leaf | apply fl_or | apply fl_opt | apply fl_two | apply fl_one | apply fl_rep0 | apply fl_rep].
Ltac flat_by := eapply fl_le; [flh|apply Nat.leb_le; reflexivity].
Ltac small := apply Nat.leb_le; reflexivity.
Lemma fl_space : flat 4 mt_space.
Proof. flat_by. Qed.
Lemma fl_spaced : forall A i (g : mparser A), flat i g -> flat (S (Nat.max (S (Nat.max 4 i)) 4)) (mt_spaced g).
Proof. intros A i g H. pose proof fl_space. unfold mt_spaced. apply fl_two; [now apply fl_two|assumption]. Qed.
Lemma fl_ident : flat 6 mt_ident.
Proof. pose proof fl_space. flat_by. Qed.
Lemma fl_tag : forall s, flat 6 (mt_tag s).
Proof. intros s. pose proof fl_space. flat_by. Qed.
Lemma fl_sym : forall s, flat 6 (mt_sym s).
Proof. intros s. pose proof fl_space. flat_by. Qed.
Lemma fl_integer : flat 8 (mt_integer nd).
Proof. pose proof fl_space. flat_by. Qed.
Lemma fl_bool : flat 8 mt_bool_literal.
Proof. pose proof fl_space. flat_by. Qed.
Lemma fl_string : flat 21 mt_string_literal.
Proof. flat_by. Qed.
Lemma fl_identifier : flat 9 mt_identifier.
Proof. pose proof fl_ident. flat_by. Qed.
Lemma fl_mul : flat 9 mt_mul_op.
Proof. pose proof fl_space. flat_by. Qed.
Lemma fl_mod : flat 7 mt_mod_op.
Proof. pose proof fl_space. flat_by. Qed.
Lemma fl_add : flat 8 mt_add_op.
Proof. pose proof fl_space. flat_by. Qed.
Lemma fl_comp : flat 12 mt_comp_op.
Proof. pose proof fl_space. flat_by. Qed.
Lemma ea_spaced : forall A (g : mparser A), eats g -> eats (mt_spaced g).
Proof. intros A g H. unfold mt_spaced. apply ea_first; [apply sums_skip_right|]. apply ea_second; [apply sums_skip_left|exact H]. Qed.
Lemma ea_open : forall c s, toys_mark c = true -> eats (mt_tag (c :: s)).
Proof. intros c s M. now apply ea_spaced, ea_tag. Qed.
Lemma ea_sym : forall c, toys_mark c = true -> eats (mt_sym c).
Proof. intros c M. now apply ea_spaced, ea_elm_ref. Qed.
Lemma ea_mul : eats mt_mul_op.
Proof. unfold mt_mul_op, m_map_panic, m_id, m_map. apply ea_one; [apply same_map_panic|]. apply ea_one; [apply same_map|]. apply ea_or; now apply ea_sym. Qed.
Lemma ea_mod : eats mt_mod_op.
Proof. unfold mt_mod_op, m_map_panic. apply ea_one; [apply same_map_panic|]. now apply ea_sym. Qed.
Lemma ea_add : eats mt_add_op.
Proof. unfold mt_add_op, m_map_panic. apply ea_one; [apply same_map_panic|]. apply ea_or; now apply ea_sym. Qed.
Lemma ea_comp : eats mt_comp_op.
Proof.
  unfold mt_comp_op, m_map_panic, m_attempt. apply ea_one; [apply same_map_panic|]. apply ea_spaced. repeat apply ea_or; try (apply ea_one; [apply same_attempt|]); now apply ea_tag.
Qed.

(** ** Expressions *)
Definition per_mark := 33.
Definition per_expression := 44.
Lemma t_spaced : forall A i (g : mparser A), tall per_mark i g -> tall per_mark (S (Nat.max (S (Nat.max 4 i)) 4)) (mt_spaced g).
Proof. intros A i g H. unfold mt_spaced. apply t_two; [apply t_two; [apply t_flat, fl_space|exact H]|apply t_flat, fl_space]. Qed.
Section Primary.
Variable expr : mparser expr.
Hypothesis T : tall per_mark per_expression expr.
Lemma t_function_call : tall per_mark 22 (mt_function_call expr).
Proof.
  unfold mt_function_call, m_surround, mt_lparen. do 3 apply t_one.
  eapply t_le; [apply t_spaced; apply t_one; apply t_two; [apply t_flat, fl_ident|apply t_open with (i := 6) (j := 14); [now apply ea_open|apply t_flat, fl_tag|]]|small].
  eapply t_le; [apply t_two; [apply t_rep with (j := 6); [apply t_one, T|apply t_flat, fl_tag]|apply t_flat, fl_tag]|small].
Qed.
Lemma t_labelled_call : tall per_mark 22 (mt_labelled_call expr).
Proof.
  unfold mt_labelled_call, mt_param, m_surround, mt_lbracket. do 3 apply t_one.
  eapply t_le; [apply t_spaced; apply t_one; apply t_two; [apply t_flat, fl_ident|apply t_open with (i := 6) (j := 14); [now apply ea_open|apply t_flat, fl_tag|]]|small].
  eapply t_le; [apply t_two; [apply t_rep with (i := 14) (j := 6); [|apply t_flat, fl_tag]|apply t_flat, fl_tag]|small].
  apply t_one. apply t_open with (i := 7) (j := 12); [apply ea_second; [apply sums_skip_right|now apply ea_elm_ref]|apply t_flat; pose proof fl_ident; flat_by|apply t_one, T].
Qed.
Lemma t_array_literal : tall per_mark 20 (mt_array_literal expr).
Proof.
  unfold mt_array_literal, m_surround, mt_lbracket. do 2 apply t_one.
  eapply t_le; [apply t_spaced; apply t_one; apply t_open with (i := 6) (j := 14); [now apply ea_open|apply t_flat, fl_tag|]|small].
  eapply t_le; [apply t_two; [apply t_rep with (j := 6); [apply t_one, T|apply t_flat, fl_tag]|apply t_flat, fl_tag]|small].
Qed.
Lemma t_paren : tall per_mark 15 (mt_paren_expr expr).
Proof.
  unfold mt_paren_expr, mt_lparen. apply t_one. eapply t_le; [apply t_two; [apply t_open with (i := 6) (j := 12); [now apply ea_open|apply t_flat, fl_tag|apply t_one, T]|apply t_flat, fl_tag]|small].
Qed.
Lemma t_primary : tall per_mark 30 (mt_primary_of nd expr).
Proof.
  unfold mt_primary_of. do 3 apply t_one.
  eapply t_le; [repeat apply t_or; [apply t_paren|apply t_flat, fl_integer|apply t_flat, fl_string|apply t_function_call|apply t_labelled_call|apply t_array_literal|apply t_flat, fl_bool|apply t_flat, fl_identifier]|small].
Qed.
Lemma t_expression_of : tall per_mark per_expression (mt_expression_of (mt_primary_of nd expr)).
Proof.
  unfold mt_expression_of, mt_comparative, mt_additive, mt_moditive, mt_multitive. do 4 apply t_one.
  eapply t_le; [apply t_chain; [small|apply ea_comp|apply t_flat, fl_comp|do 2 apply t_one; apply t_chain; [small|apply ea_add|apply t_flat, fl_add|do 2 apply t_one; apply t_chain; [small|apply ea_mod|apply t_flat, fl_mod|
    do 2 apply t_one; apply t_chain; [small|apply ea_mul|apply t_flat, fl_mul|apply t_primary]]]]|small].
Qed.
End Primary.
Lemma t_expression_fuel : forall n, tall per_mark per_expression (mt_expression_fuel nd n).
Proof. induction n as [|n IH]; [intros inp off; cbn; lia|]. cbn [mt_expression_fuel]. now apply t_expression_of. Qed.
Lemma t_expression : tall per_mark per_expression (mt_expression nd).
Proof. intros inp off. apply t_expression_fuel. Qed.

(** ** Lines *)
Definition per_line := 54.
Lemma ea_cond : eats (m_surround mt_lparen (m_lazy (mt_expression nd)) mt_rparen).
Proof. apply ea_first; [apply sums_skip_left|]. now apply ea_open. Qed.
Lemma t_cond : tall per_mark 14 (m_surround mt_lparen (m_lazy (mt_expression nd)) mt_rparen).
Proof.
  unfold m_surround, mt_lparen. eapply t_le; [apply t_open with (i := 6) (j := 13); [now apply ea_open|apply t_flat, fl_tag|]|small].
  eapply t_le; [apply t_two; [apply t_one, t_expression|apply t_flat, fl_tag]|small].
Qed.
Lemma ea_if_head : eats (mt_if_head nd).
Proof. unfold mt_if_head. apply ea_first; [apply sums_skip_right|]. apply ea_first; [apply sums_skip_left|]. apply ea_second; [apply sums_skip_left|]. now apply ea_open. Qed.
Lemma t_if_head : tall per_mark 13 (mt_if_head nd).
Proof.
  unfold mt_if_head. eapply t_le; [apply t_two; [apply t_open with (i := 7) (j := 11); [apply ea_second; [apply sums_skip_left|now apply ea_open]| |exact t_expression]|apply t_flat, fl_tag]|small].
  apply t_flat. pose proof fl_space. pose proof (fl_tag (bs "(")). unfold mt_lparen. flat_by.
Qed.
Lemma ea_for_head : eats (mt_for_params nd).
Proof.
  unfold mt_for_params. do 2 (apply ea_first; [apply sums_skip_right|]). apply ea_first; [apply sums_and|]. apply ea_first; [apply sums_skip_right|]. apply ea_first; [apply sums_and|].
  apply ea_first; [apply sums_skip_right|]. apply ea_first; [apply sums_skip_left|]. now apply ea_open.
Qed.
Lemma t_for_head : tall per_mark 16 (mt_for_params nd).
Proof.
  unfold mt_for_params.
  assert (E1 : eats (m_skip_right (m_skip_left mt_lparen mt_ident) (m_and (m_and mt_space (m_tag (bs "in"))) mt_space))) by (apply ea_first; [apply sums_skip_right|]; apply ea_first; [apply sums_skip_left|]; now apply ea_open).
  assert (F1 : flat 8 (m_skip_right (m_skip_left mt_lparen mt_ident) (m_and (m_and mt_space (m_tag (bs "in"))) mt_space))).
  { pose proof fl_space. pose proof fl_ident. pose proof (fl_tag (bs "(")). unfold mt_lparen. flat_by. }
  assert (E2 : eats (m_skip_right (m_and (m_skip_right (m_skip_left mt_lparen mt_ident) (m_and (m_and mt_space (m_tag (bs "in"))) mt_space)) (mt_expression nd)) (mt_tag (bs "to")))).
  { apply ea_first; [apply sums_skip_right|]. apply ea_first; [apply sums_and|exact E1]. }
  eapply t_le; [apply t_two; [apply t_two; [apply t_open with (j := 11); [exact E2|apply t_two; [apply t_open with (j := 11); [exact E1|apply t_flat, F1|exact t_expression]|apply t_flat, fl_tag]|exact t_expression]|apply t_flat, fl_space]|apply t_flat, fl_tag]|small].
Qed.
Section Line.
Variable ln : mparser expr.
Hypothesis T : tall per_mark per_line ln.
Lemma t_println : tall per_mark 22 (mt_println nd).
Proof.
  unfold mt_println. do 3 apply t_one. eapply t_le; [apply t_spaced; apply t_one; apply t_two; [apply t_two; [apply t_flat, fl_leaf|apply t_cond]|apply t_flat, fl_tag]|small].
Qed.
Lemma t_while : tall per_mark 29 (mt_while nd ln).
Proof.
  unfold mt_while. do 3 apply t_one. eapply t_le; [apply t_spaced; apply t_one; apply t_open with (j := 22); [apply ea_second; [apply sums_skip_left|apply ea_cond]|apply t_two; [apply t_flat, fl_tag|apply t_cond]|apply t_one, T]|small].
Qed.
Lemma t_for : tall per_mark 29 (mt_for nd ln).
Proof.
  unfold mt_for. do 3 apply t_one. eapply t_le; [apply t_spaced; apply t_one; apply t_open with (i := 18) (j := 22); [apply ea_second; [apply sums_skip_left|apply ea_one; [apply same_map|apply ea_for_head]]| |apply t_one, T]|small].
  eapply t_le; [apply t_two; [apply t_flat; pose proof fl_space; flh|apply t_one, t_for_head]|small].
Qed.
Lemma t_if : tall per_mark 32 (mt_if nd ln).
Proof.
  unfold mt_if. do 3 apply t_one. eapply t_le; [apply t_spaced; apply t_one; apply t_open with (i := 22) (j := 25); [apply ea_first; [apply sums_and|apply ea_if_head]| |]|small].
  - eapply t_le; [apply t_open with (j := 21); [apply ea_if_head|apply t_if_head|exact T]|small].
  - eapply t_le; [apply t_opt, t_two; [apply t_flat, fl_tag|exact T]|small].
Qed.
Lemma t_block : tall per_mark 30 (mt_block ln).
Proof.
  unfold mt_block, m_surround, mt_lbrace. do 2 apply t_one. eapply t_le; [apply t_spaced; apply t_one; apply t_open with (i := 6) (j := 24); [now apply ea_open|apply t_flat, fl_tag|]|small].
  eapply t_le; [apply t_two; [apply t_rep0, t_one, T|apply t_flat, fl_tag]|small].
Qed.
Lemma t_assignment : tall per_mark 19 (mt_assignment nd).
Proof.
  unfold mt_assignment. do 3 apply t_one. eapply t_le; [apply t_spaced; apply t_one; apply t_two; [apply t_open with (i := 7) (j := 11); [apply ea_second; [apply sums_skip_right|now apply ea_open]| |exact t_expression]|apply t_flat, fl_tag]|small].
  apply t_flat. pose proof fl_ident. pose proof (fl_tag (bs "=")). flat_by.
Qed.
Lemma t_expression_line : tall per_mark 48 (mt_expression_line nd).
Proof. unfold mt_expression_line. do 3 apply t_one. eapply t_le; [apply t_two; [exact t_expression|apply t_flat, fl_tag]|small]. Qed.
Lemma t_line_of : tall per_mark per_line (mt_line_of nd ln).
Proof.
  unfold mt_line_of. do 2 apply t_one. eapply t_le; [apply t_spaced; repeat apply t_or;
    [apply t_println|apply t_one, t_while|apply t_one, t_if|apply t_one, t_for|apply t_assignment|apply t_expression_line|apply t_block]|small].
Qed.
End Line.
Lemma t_line_fuel : forall n, tall per_mark per_line (mt_line_fuel nd n).
Proof. induction n as [|n IH]; [intros inp off; cbn; lia|]. cbn [mt_line_fuel]. now apply t_line_of. Qed.
Lemma t_line : tall per_mark per_line (mt_line nd).
Proof. intros inp off. apply t_line_fuel. Qed.
Theorem lines_height : forall text, hgt (snd (mt_lines nd text 0)) <= 33 * ahead toys_mark text + 57.
Proof.
  intros text. assert (H : tall per_mark 57 (mt_lines nd)); [|exact (H text 0)]. unfold mt_lines.
  eapply t_le; [apply t_two; [apply t_two; [apply t_rep0, t_line|apply t_flat, fl_space]|apply t_flat, fl_leaf]|small].
Qed.
Theorem program_height : forall text, hgt (snd (mt_program nd text 0)) <= 33 * ahead toys_mark text + 42.
Proof.
  intros text. assert (H : tall per_mark 42 (mt_program nd)); [|exact (H text 0)]. unfold mt_program, mt_top_level_definition, mt_global, mt_function_definition.
  eapply t_le; [apply t_two; [apply t_flat, fl_space|apply t_one, t_one, t_rep0, t_one, t_or; do 2 apply t_one; apply t_spaced; apply t_one]|].
  - apply t_two; [apply t_open with (i := 8) (j := 11); [apply ea_second; [apply sums_skip_right|now apply ea_open]| |exact t_expression]|apply t_flat, fl_tag].
    apply t_flat. pose proof fl_ident. pose proof (fl_tag (bs "=")). pose proof (fl_tag (bs "global")). flat_by.
  - apply t_two; [|apply t_block, t_line]. apply t_flat with (b := 11). pose proof fl_space. pose proof fl_ident. pose proof (fl_tag (bs "(")). pose proof (fl_tag (bs ",")). pose proof (fl_tag (bs ")")).
    unfold mt_lparen, mt_rparen, mt_comma. eapply fl_le; [flh|small].
  - small.
Qed.
End Heights.
