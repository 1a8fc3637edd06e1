(** C152: what the toys parsers write to the log. *)
From Verif Require Import PropsI Hoare ToysSyntax ToysParseSound ToysParseComplete Runs JsonSpec JsonFacts CalcFacts LitFacts Log LogToys.
From Verif Require Import Base Core Comb Closure Text Json Calc Toys ToysParse.
From Coq Require Import Permutation.
Set Implicit Arguments.
Local Open Scope string_scope.
Local Open Scope nat_scope.
Local Open Scope list_scope.

(** ** The outcomes *)
Section Grammar.
Variable nd : N -> bool.
Variable show : shown.
Variable show_params : outcome N (name * expr * expr) -> list N.
Ltac we := repeat first [assumption|apply we_leaf|apply we_name|apply we_attempt|apply we_map|apply we_map_panic|apply we_and|apply we_skip_left|apply we_skip_right|apply we_surround
  |apply we_or|apply we_opt|apply we_regex|apply we_map_res|apply we_many0_sep|apply we_many1_sep|apply we_many0|apply we_many1|apply we_chain].
Lemma e_spaced : forall A (g : wparser A) p, werases g p -> werases (wt_spaced g) (spaced p).
Proof. intros A g p H. unfold wt_spaced, spaced. we. Qed.
Lemma e_ident : werases (wt_ident show) ident.
Proof. unfold wt_ident, ident. apply e_spaced. we. Qed.
Lemma e_integer : werases (wt_integer nd show) (t_integer nd).
Proof. unfold wt_integer, t_integer. apply we_name, e_spaced. we. Qed.
Lemma e_identifier : werases (wt_identifier show) identifier.
Proof. pose proof e_ident. unfold wt_identifier, identifier. we. Qed.
Lemma e_op : werases (w_log_map (w_leaf (p_or (t_sym (chr "*")) (t_sym (chr "/")))) (bs "operator") LDebug (on_op show)) (p_or (t_sym (chr "*")) (t_sym (chr "/"))).
Proof. exact (we_log_map _ _ _ (fun _ => tt) (we_leaf _)). Qed.
Lemma e_expression_of : forall g p, werases g p -> werases (wt_expression_of show g) (expression_of p).
Proof.
  intros g p H. unfold wt_expression_of, expression_of, wt_comparative, comparative, wt_additive, t_additive, wt_moditive, t_moditive, wt_multitive, t_multitive.
  pose proof e_op. we.
Qed.
Lemma e_primary : forall g p, werases g p -> werases (wt_primary_of nd show g) (primary_of nd p).
Proof.
  intros g p H. unfold wt_primary_of, primary_of, wt_paren_expr, wt_function_call, wt_labelled_call, wt_array_literal, wt_param, wt_string_literal, wt_bool_literal.
  pose proof e_ident. apply we_name. repeat apply we_or; try apply we_leaf; try apply e_integer; try apply e_identifier; [unfold paren_expr|unfold function_call|unfold labelled_call, param|unfold array_literal]; we; apply e_spaced; we.
Qed.
Lemma e_expression : werases (wt_expression nd show) (expression nd).
Proof.
  intros inp off. unfold wt_expression, expression. revert inp off. assert (H : forall n, werases (wt_expression_fuel nd show n) (expression_fuel nd n)); [|intros inp off; apply H].
  induction n as [|n IH]; [apply we_leaf|]. cbn [wt_expression_fuel expression_fuel]. now apply e_expression_of, e_primary.
Qed.
Lemma e_params : werases (wt_for_params nd show) (for_params nd).
Proof. pose proof e_expression. pose proof e_ident. unfold wt_for_params, for_params. we. Qed.
Lemma e_block : forall g p, werases g p -> werases (wt_block g) (block p).
Proof. intros g p H. unfold wt_block, block. apply we_name, e_spaced. we. Qed.
Lemma e_line_fuel : forall n, werases (wt_line_fuel nd show show_params n) (line_fuel nd n).
Proof.
  pose proof e_expression as X. pose proof e_ident as I. induction n as [|n IH]; [apply we_leaf|]. cbn [wt_line_fuel line_fuel]. unfold wt_line_of, line_of. apply we_name, e_spaced.
  assert (F : werases (w_log_map (wt_for_params nd show) (bs "params") LDebug show_params) (for_params nd)) by exact (we_log_map _ _ _ (fun _ => tt) e_params).
  repeat apply we_or; [unfold wt_println, println|unfold wt_while, while_p|unfold wt_if, if_p|unfold wt_for, for_p|unfold wt_assignment, assignment|unfold wt_expression_line, expression_line|];
    try (apply we_name, we_attempt, e_spaced); [we..|now apply e_block].
Qed.
Lemma e_line : werases (wt_line nd show show_params) (line nd).
Proof. intros inp off. apply e_line_fuel. Qed.
Lemma e_lines : werases (wt_lines nd show show_params) (lines nd).
Proof. pose proof e_line. unfold wt_lines, lines. we. Qed.
Lemma e_program : werases (wt_program nd show show_params) (program nd).
Proof.
  pose proof e_line as H. pose proof e_expression as X. pose proof e_ident as I. unfold wt_program, program. apply we_skip_left; [apply we_leaf|]. apply we_map, we_many0. unfold wt_top_level_definition, top_level_definition.
  apply we_name, we_or; [unfold wt_global_variable_definition, global_variable_definition|unfold wt_function_definition, function_definition]; apply we_name, e_spaced, we_map.
  - we.
  - apply we_and; [we|now apply e_block].
Qed.

(** ** The lines *)
(** A run of (mul() | div()).debug(..), of params.debug(..) or of regex somewhere in the text. *)
Definition run_line (inp : list N) (l : Log.line) : Prop := exists off,
  l = Line LDebug (bs "operator" ++ bs " = " ++ on_op show (p_or (t_sym (chr "*")) (t_sym (chr "/")) inp off)) \/
  l = Line LDebug (bs "params" ++ bs " = " ++ show_params (for_params nd inp off)) \/
  l = Line LDebug (bs "regex: input = " ++ on_input show (skipn off inp)).
Lemma t_regex : forall find, tells run_line (w_regex (on_input show) find).
Proof.
  intros find inp off. unfold w_regex, ps_input, slice_from. destruct (off <=? length inp); constructor; [|constructor]. exists off. right. now right.
Qed.
Ltac te := repeat first [assumption|apply t_leaf|apply t_regex|apply t_one|apply t_two|apply t_or|apply t_opt|apply t_rep1|apply t_rep0|apply t_chain].
Lemma t_expression : tells run_line (wt_expression nd show).
Proof.
  intros inp off. unfold wt_expression. revert inp off. assert (H : forall n, tells run_line (wt_expression_fuel nd show n)); [|intros inp off; apply H].
  assert (O : tells run_line (w_log_map (w_leaf (p_or (t_sym (chr "*")) (t_sym (chr "/")))) (bs "operator") LDebug (on_op show))).
  { apply t_log_map with (p := p_or (t_sym (chr "*")) (t_sym (chr "/"))); [apply we_leaf|apply t_leaf|]. intros inp off. exists off. now left. }
  induction n as [|n IH]; [apply t_leaf|]. cbn [wt_expression_fuel].
  unfold wt_expression_of, wt_comparative, wt_additive, wt_moditive, wt_multitive, wt_primary_of, wt_paren_expr, wt_function_call, wt_labelled_call, wt_array_literal, wt_param, wt_integer, wt_string_literal,
    wt_bool_literal, wt_identifier, wt_ident, wt_spaced, w_name, w_map, w_map_panic, w_attempt, w_skip_left, w_skip_right, w_and, w_surround, w_many0_sep, w_many1_sep. te.
Qed.
Lemma t_line : tells run_line (wt_line nd show show_params).
Proof.
  intros inp off. unfold wt_line. revert inp off. assert (H : forall n, tells run_line (wt_line_fuel nd show show_params n)); [|intros inp off; apply H].
  pose proof t_expression as X.
  assert (F : tells run_line (w_log_map (wt_for_params nd show) (bs "params") LDebug show_params)).
  { apply t_log_map with (p := for_params nd); [apply e_params| |]; [unfold wt_for_params, wt_ident, wt_spaced, w_skip_right, w_skip_left, w_and; te|]. intros inp off. exists off. right. now left. }
  induction n as [|n IH]; [apply t_leaf|]. cbn [wt_line_fuel].
  unfold wt_line_of, wt_println, wt_while, wt_if, wt_for, wt_assignment, wt_expression_line, wt_block, wt_ident, wt_spaced, w_name, w_map, w_attempt, w_skip_left, w_skip_right, w_and, w_surround, w_many0. te.
Qed.

(** ** The products of a tree *)
Fixpoint products (e : expr) : nat :=
  match e with
  | EBin o l r => match o with OMul => 1 | ODiv => 1 | _ => 0 end + products l + products r
  | EArray es => list_sum (map products es)
  | ECall _ es => list_sum (map products es)
  | EBlock es => list_sum (map products es)
  | EProgram es => list_sum (map products es)
  | ELabelled _ es => list_sum (map (fun a => products (snd a)) es)
  | EPlus e => products e
  | EMinus e => products e
  | EPrintln e => products e
  | EParen e => products e
  | EAssign _ e => products e
  | EGlobal _ e => products e
  | EFun _ _ e => products e
  | EWhile c b => products c + products b
  | EIf c t e => products c + products t + match e with Some x => products x | None => 0 end
  | _ => 0
  end.
(** An operator that was found. *)
Definition found_line (inp : list N) (l : Log.line) : Prop := exists off c n,
  p_or (t_sym (chr "*")) (t_sym (chr "/")) inp off = Success c n /\ l = Line LDebug (bs "operator" ++ bs " = " ++ on_op show (Success c n)).
Notation counts := (counts found_line).
Definition weight (f : expr -> expr -> expr) : nat := products (f (EInt 0) (EInt 0)).
Lemma w_spaced : forall A m (g : wparser A), counts m g -> counts m (wt_spaced g).
Proof. intros A m g H. now apply k_skip_right, k_skip_left. Qed.
Lemma k_op : counts weight (w_map_panic (w_log_map (w_leaf (p_or (t_sym (chr "*")) (t_sym (chr "/")))) (bs "operator") LDebug (on_op show))
    (fun c => if (c =? chr "*")%N then Some (EBin OMul) else if (c =? chr "/")%N then Some (EBin ODiv) else None)).
Proof.
  intros inp off f n w E. unfold w_map_panic, w_one, w_log_map, w_leaf in E. destruct (p_or (t_sym (chr "*")) (t_sym (chr "/")) inp off) as [c k|e c| |] eqn:Ep; try discriminate.
  cbn [app p_map_panic] in E. injection E as E <-. unfold p_map_panic in E. exists [Line LDebug (bs "operator" ++ bs " = " ++ on_op show (Success c k))], []. split; [reflexivity|].
  split; [|constructor; [exists off, c, k; now split|constructor]]. destruct (c =? 42)%N; [injection E as <- _; reflexivity|]. destruct (c =? 47)%N; [injection E as <- _; reflexivity|discriminate].
Qed.
(** Operators that build nodes. *)
Definition builds (q : parser N (expr -> expr -> expr)) : Prop := forall inp off f n, q inp off = Success f n -> exists o, f = EBin o.
Definition light (q : parser N (expr -> expr -> expr)) : Prop := forall inp off f n, q inp off = Success f n -> exists o, f = EBin o /\ weight f = 0.
Lemma chain_op : forall (q : parser N (expr -> expr -> expr)), builds q ->
  forall inp off f n, q inp off = Success f n -> forall x y, products (f x y) <= products x + products y + weight f.
Proof. intros q H inp off f n E x y. destruct (H _ _ _ _ E) as (o & ->). unfold weight. cbn [products]. lia. Qed.
Lemma light_chain : forall g q, light q -> counts products g -> counts products (w_chain_left1 g (w_leaf q)).
Proof.
  intros g q L H. apply k_chain with (mo := weight) (op := q); [apply we_leaf|exact H| |].
  - apply k_leaf. intros inp off f n E. now destruct (L _ _ _ _ E) as (o & _ & W).
  - apply chain_op. intros inp off f n E. destruct (L _ _ _ _ E) as (o & -> & _). now exists o.
Qed.
Lemma light_map : forall A (q : parser N A) f, (forall x g, f x = Some g -> exists o, g = EBin o /\ weight g = 0) -> light (p_map_panic q f).
Proof. intros A q f H inp off g n E. unfold p_map_panic in E. destruct (q inp off) as [x k|e c| |]; try discriminate. destruct (f x) as [h|] eqn:Ef; [|discriminate]. injection E as <- _. eapply H, Ef. Qed.
Lemma k_expression_of : forall g, counts products g -> counts products (wt_expression_of show g).
Proof.
  intros g H. apply k_name, k_name, light_chain; [|apply k_name, light_chain; [|apply k_name, light_chain; [|apply k_name]]].
  - apply light_map. intros x f E. unfold hm_get in E. repeat match type of E with context [if ?b then _ else _] => destruct b; [injection E as <-; eexists; split; reflexivity|] end. discriminate.
  - apply light_map. intros x f E. repeat match type of E with context [if ?b then _ else _] => destruct b; [injection E as <-; eexists; split; reflexivity|] end. discriminate.
  - apply light_map. intros x f E. repeat match type of E with context [if ?b then _ else _] => destruct b; [injection E as <-; eexists; split; reflexivity|] end. discriminate.
  - apply k_chain with (mo := weight) (op := p_map_panic (p_or (t_sym (chr "*")) (t_sym (chr "/")))
      (fun c => if (c =? chr "*")%N then Some (EBin OMul) else if (c =? chr "/")%N then Some (EBin ODiv) else None)); [apply we_map_panic, e_op|exact H|apply k_op|].
    apply chain_op. intros inp off f n E. unfold p_map_panic in E. destruct (p_or _ _ inp off) as [x k|e c| |]; try discriminate.
    repeat match type of E with context [if ?b then _ else _] => destruct b; [injection E as <- _; eexists; reflexivity|] end. discriminate.
Qed.
Lemma zero_leaf : forall A (g : wparser A), counts (fun _ => 0) g.
Proof. intros A g. apply k_zero. Qed.
Lemma plain_primary : forall g p, werases g p -> (forall inp off v n, p inp off = Success v n -> products v = 0) -> counts products g.
Proof. intros g p W H inp off v n w E. specialize (W inp off). rewrite E in W. rewrite (H _ _ _ _ (eq_sym W)). apply many_0. Qed.
Lemma leaf_primary : forall p, (forall inp off v n, p inp off = Success v n -> products v = 0) -> counts products (w_leaf p).
Proof. intros p H. now apply k_leaf. Qed.
Lemma spaced_value : forall A (R : A -> Prop) (p : parser N A), (forall inp off v n, p inp off = Success v n -> R v) -> forall inp off v n, spaced p inp off = Success v n -> R v.
Proof.
  intros A R p H inp off v n E. unfold spaced, p_skip_right, p_skip_left in E. destruct (t_space inp off); try discriminate. destruct (p inp _) as [x k|e c| |] eqn:Ep; try discriminate.
  destruct (t_space inp _); try discriminate. injection E as <- _. eapply H, Ep.
Qed.
Lemma name_value : forall A (R : A -> Prop) (p : parser N A) s, (forall inp off v n, p inp off = Success v n -> R v) -> forall inp off v n, p_name p s inp off = Success v n -> R v.
Proof. intros A R p s H inp off v n E. unfold p_name in E. destruct (p inp off) as [x k|e c| |] eqn:Ep; try discriminate; [injection E as <- _; eapply H, Ep|]. destruct (is_custom e); discriminate. Qed.
Lemma map_value : forall A B (R : B -> Prop) (p : parser N A) f, (forall x, R (f x)) -> forall inp off v n, p_map p f inp off = Success v n -> R v.
Proof. intros A B R p f H inp off v n E. unfold p_map in E. destruct (p inp off); try discriminate. injection E as <- _. apply H. Qed.
Lemma k_primary : forall g, counts products g -> counts products (wt_primary_of nd show g).
Proof.
  intros g H. apply k_name. repeat apply k_or.
  - apply k_map with (m := products); [intros; apply le_n|]. now apply k_skip_right, k_skip_left.
  - apply (plain_primary e_integer), name_value, spaced_value, map_value. reflexivity.
  - apply leaf_primary, name_value. intros inp off v n E. unfold p_attempt, with_uncommitted in E. destruct (p_map (string_p false) EString inp off) as [x k|e [|]| |] eqn:Ep; try discriminate.
    injection E as <- _. revert Ep. apply (@map_value _ _ (fun v => products v = 0)). reflexivity.
  - apply k_name, k_attempt, w_spaced. eapply k_map; [|apply k_and; [apply zero_leaf|apply k_surround, k_rep, H]]. intros [f args]. apply le_n.
  - apply k_name, k_attempt, w_spaced. eapply k_map; [|apply k_and; [apply zero_leaf|apply k_surround, k_rep]].
    + intros [f args]. apply le_n.
    + eapply k_map; [|apply k_and; [apply k_skip_right, zero_leaf|exact H]]. intros [x e]. apply le_n.
  - apply k_name, w_spaced. eapply k_map; [|apply k_surround, k_rep, H]. intros l. apply le_n.
  - apply leaf_primary, name_value, spaced_value. intros inp off v n E. unfold p_map_panic in E. destruct (p_or _ _ inp off) as [x k|e c| |]; try discriminate.
    unfold hm_get in E. repeat match type of E with context [if ?b then _ else _] => destruct b; [injection E as <- _; reflexivity|] end. discriminate.
  - apply (plain_primary e_identifier), name_value, map_value. reflexivity.
Qed.
Lemma k_expression : counts products (wt_expression nd show).
Proof.
  intros inp off. unfold wt_expression. revert inp off. assert (H : forall n, counts products (wt_expression_fuel nd show n)); [|intros inp off; apply H].
  induction n as [|n IH]; [apply k_leaf; discriminate|]. cbn [wt_expression_fuel]. now apply k_expression_of, k_primary.
Qed.
Lemma k_log : forall A m (g : wparser A) s lv f, counts m g -> counts m (w_log_map g s lv f).
Proof.
  intros A m g s lv f H inp off v n w E. unfold w_log_map in E. destruct (g inp off) as [[x k|e c| |] w1] eqn:Eg; try discriminate. injection E as <- _ <-.
  rewrite <- (Nat.add_0_r (m x)). apply many_app; [eapply H, Eg|apply many_0].
Qed.
Lemma k_block : forall g, counts products g -> counts products (wt_block g).
Proof. intros g H. apply k_name, w_spaced. eapply k_map; [|apply k_surround, k_rep, H]. intros l. apply le_n. Qed.
Lemma k_line : counts products (wt_line nd show show_params).
Proof.
  intros inp off. unfold wt_line. revert inp off. assert (H : forall n, counts products (wt_line_fuel nd show show_params n)); [|intros inp off; apply H]. pose proof k_expression as X.
  induction n as [|n IH]; [apply k_leaf; discriminate|]. cbn [wt_line_fuel]. apply k_name, w_spaced. repeat apply k_or.
  - apply k_name, k_attempt, w_spaced. eapply k_map; [|apply k_skip_right, k_skip_left, k_surround, X]. intros e. apply le_n.
  - apply k_name, k_attempt, w_spaced. eapply k_map; [|apply k_and; [apply k_skip_left, k_surround, X|exact IH]]. intros [c b]. apply le_n.
  - apply k_name, k_attempt, w_spaced. eapply k_map; [|apply k_and; [apply k_and; [apply k_skip_right, k_skip_left, X|exact IH]|apply k_opt, k_skip_left, IH]]. intros [[c t] e]. apply le_n.
  - apply k_name, k_attempt, w_spaced.
    eapply k_map; [|apply k_and; [apply k_skip_left, k_log, k_skip_right, k_skip_right, k_and; [apply k_skip_right, k_and; [apply k_zero|exact X]|exact X]|exact IH]].
    intros [[[x from] to_] body]. cbn. lia.
  - apply k_name, k_attempt, w_spaced. eapply k_map; [|apply k_skip_right, k_and; [apply k_skip_right, zero_leaf|exact X]]. intros [x e]. apply le_n.
  - apply k_name, k_attempt, k_skip_right, X.
  - now apply k_block.
Qed.
Lemma k_lines : counts (fun l => list_sum (map products l)) (wt_lines nd show show_params).
Proof. apply k_skip_right, k_skip_right, k_rep, k_line. Qed.
Lemma k_program : counts products (wt_program nd show show_params).
Proof.
  apply k_skip_left. eapply k_map; [|apply k_rep with (m := products), k_name, k_or]; [intros l; apply le_n|..]; apply k_name, w_spaced.
  - eapply k_map; [|apply k_skip_right, k_and; [apply zero_leaf|apply k_expression]]. intros [x e]. apply le_n.
  - eapply k_map; [|apply k_and; [apply zero_leaf|apply k_block, k_line]]. intros [[f args] body]. apply le_n.
Qed.
End Grammar.

(** ** The log of a product *)
(** What follows the first number: operators and numbers, each with layout behind.  [ps] are the places where the numbers begin and where
    the layout behind them ends, [f] puts the tree together. *)
Definition shift (k : nat) (p : nat * nat) : nat * nat := (k + fst p, k + snd p).
Inductive product_tail : list N -> list (nat * nat) -> (expr -> expr) -> Prop :=
| pt_nil : product_tail [] [] (fun x => x)
| pt_cons : forall o so z t s rest ps f, o = OMul \/ o = ODiv -> lx (op_text o) so -> int_text z t -> lx t s -> product_tail rest ps f ->
    product_tail (so ++ s ++ rest) ((length so, length (so ++ s)) :: map (shift (length (so ++ s))) ps) (fun x => f (EBin o x (EInt z))).
Section Product.
Variable nd : N -> bool.
Hypothesis nd_ascii : forall x, (x < 128)%N -> (nd x = true <-> digit x).
Variable show : shown.
Definition op_line (inp : list N) (off : nat) : Log.line := Line LDebug (bs "operator" ++ bs " = " ++ on_op show (p_or (t_sym (chr "*")) (t_sym (chr "/")) inp off)).
Definition re_line (inp : list N) (off : nat) : Log.line := Line LDebug (bs "regex: input = " ++ on_input show (skipn off inp)).
Definition number_lines (inp : list N) (p : nat * nat) : list Log.line := [re_line inp (fst p); op_line inp (snd p)].
Lemma flat_shift : forall A B C (f : B -> list C) (g : A -> B) l, flat_map f (map g l) = flat_map (fun x => f (g x)) l.
Proof. intros A B C f g l. induction l as [|x l IH]; [reflexivity|]. cbn [map flat_map]. now rewrite IH. Qed.
Lemma or_first : forall A (g h : wparser A) inp off v n w, g inp off = (Success v n, w) -> w_or g h inp off = (Success v n, w).
Proof. intros A g h inp off v n w E. unfold w_or. now rewrite E. Qed.
Lemma name_run : forall A (g : wparser A) s inp off v n w, g inp off = (Success v n, w) -> w_name g s inp off = (Success v n, w).
Proof. intros A g s inp off v n w E. unfold w_name, w_one. now rewrite E. Qed.
Definition stop (rest : list N) : Prop := match rest with [] => True | x :: _ => x = 42%N \/ x = 47%N end.
Lemma primary_run : forall g z t s rest, int_text z t -> lx t s -> stop rest -> forall pre, wt_primary_of nd show g (pre ++ s ++ rest) (length pre) =
  (Success (EInt z) (length s), [re_line (pre ++ s ++ rest) (length pre)]).
Proof.
  intros g z t s rest Hz (w & -> & Hw) Hs pre. destruct (int_hd [] Hz) as (c & u & Ec & Hc). rewrite app_nil_r in Ec.
  assert (Hr : no_ws rest) by (destruct rest as [|x r]; [exact I|]; cbn in *; lia). assert (St : solid t) by (rewrite Ec; cbn; unfold digit in Hc; lia).
  assert (K : hd_not nd (w ++ rest)).
  { destruct w as [|y w].
    - destruct rest as [|x r]; [exact I|]. cbn in *. destruct (nd x) eqn:En; [|reflexivity]. apply nd_ascii in En; unfold digit in *; lia.
    - inversion Hw as [|? ? Hy _]; subst. cbn. destruct (nd y) eqn:En; [|reflexivity]. apply nd_ascii in En; [|cbn in Hy; lia]. unfold digit in En. cbn in Hy. lia. }
  assert (Pa : exists e, w_leaf lparen (pre ++ (t ++ w) ++ rest) (length pre) = (Failure e false, [])).
  { assert (R : rej lparen ([] ++ ((t ++ w) ++ rest)) false) by (apply r_ttag; rewrite ?Ec; cbn; unfold digit in Hc; try lia; apply ws_nil). destruct (R pre) as [e E]. exists e. unfold w_leaf. cbn [app] in E. now rewrite E. }
  assert (In : acc (t_integer nd) (t ++ w) rest (EInt z)).
  { unfold t_integer. change (t ++ w) with ([] ++ t ++ w). apply a_name, a_spaced; try assumption; [apply ws_nil|]. apply a_map. eapply a_map_res; [|exact (parse_int Hz)].
    intros pre'. unfold p_regex. rewrite input_at. rewrite (@find_int nd nd_ascii z t _ Hz K). f_equal. apply utf8_len_ascii. exact (int_ascii Hz). }
  destruct Pa as [e Pa]. unfold wt_primary_of. apply name_run. do 6 apply or_first. unfold w_or. unfold wt_paren_expr, w_map, w_one, w_skip_right, w_skip_left, w_two. rewrite Pa.
  cbn [p_map p_skip_right p_skip_left]. unfold p_map, p_skip_right, p_skip_left. cbn [app].
  assert (T : t_space (pre ++ (t ++ w) ++ rest) (length pre) = Success tt 0) by (apply (@a_tspace [] ((t ++ w) ++ rest)); [apply ws_nil|rewrite Ec; cbn; unfold digit in Hc; lia]).
  pose proof (e_integer nd show (pre ++ (t ++ w) ++ rest) (length pre)) as F. rewrite (In pre) in F.
  assert (S : snd (wt_integer nd show (pre ++ (t ++ w) ++ rest) (length pre)) = [re_line (pre ++ (t ++ w) ++ rest) (length pre)]).
  { unfold wt_integer, w_name, wt_spaced, w_map, w_skip_right, w_skip_left, w_one, w_two, w_leaf, w_regex. rewrite T. rewrite Nat.add_0_r, input_at. unfold re_line. rewrite skipn_app, skipn_all, Nat.sub_diag. cbn [app skipn].
    destruct (p_skip_left _ _ _ _) as [v n|e' c'| |]; [destruct (t_space _ _)|..]; reflexivity. }
  destruct (wt_integer nd show _ _) as [o lg]. cbn [fst snd] in F, S. now subst.
Qed.
Notation WOP := (w_map_panic (w_log_map (w_leaf (p_or (t_sym (chr "*")) (t_sym (chr "/")))) (bs "operator") LDebug (on_op show))
    (fun c => if (c =? chr "*")%N then Some (EBin OMul) else if (c =? chr "/")%N then Some (EBin ODiv) else None)).
Lemma op_found : forall inp off f n, opp 0 inp off = Success f n -> WOP inp off = (Success f n, [op_line inp off]).
Proof.
  intros inp off f n E. unfold opp, p_map_panic in E. unfold w_map_panic, w_one, w_log_map, w_leaf, op_line, p_map_panic.
  destruct (p_or (t_sym (chr "*")) (t_sym (chr "/")) inp off) as [c k|e c| |]; try discriminate. cbn [app]. now rewrite E.
Qed.
Lemma op_none : forall inp off e, opp 0 inp off = Failure e false -> exists e', WOP inp off = (Failure e' false, [op_line inp off]).
Proof.
  intros inp off e E. unfold opp, p_map_panic in E. unfold w_map_panic, w_one, w_log_map, w_leaf, op_line, p_map_panic.
  destruct (p_or (t_sym (chr "*")) (t_sym (chr "/")) inp off) as [c k|e' c| |]; try discriminate; [destruct (_ : option _); discriminate|]. injection E as _ ->. exists e'. reflexivity.
Qed.
Lemma tail_stop : forall r ps f, product_tail r ps f -> stop r.
Proof. intros r ps f [|o so z t s rest ps' f' Ho (w & -> & Hw) _ _ _]; [exact I|]. destruct Ho as [->| ->]; cbn; tauto. Qed.
Lemma rest_run : forall g r ps f, product_tail r ps f -> forall pre x fuel, length r < fuel ->
  w_rest fuel (wt_primary_of nd show g) WOP x (pre ++ r) (length pre) = (Success (f x) (length r), op_line (pre ++ r) (length pre) :: flat_map (fun p => number_lines (pre ++ r) (shift (length pre) p)) ps).
Proof.
  intros g r ps f H. induction H as [|o so z t s rest ps f Ho Hso Hz Hs H IH]; intros pre x fuel L; (destruct fuel as [|fuel]; [cbn in L; lia|]); cbn [w_rest].
  - assert (R : rej (opp 0) ([] ++ []) false) by (apply r_op with (s := []); [lia|apply ws_nil|exact I]). destruct (R pre) as [e E]. cbn [app] in E. destruct (op_none _ _ E) as [e' E']. rewrite E'.
    reflexivity.
  - pose proof (tail_stop H) as St. destruct (int_hd [] Hz) as (c & u & Ec & Hc). rewrite app_nil_r in Ec. pose proof Hs as (w & Es & Hw).
    assert (Hn : no_ws (s ++ rest)) by (rewrite Es, Ec; cbn; unfold digit in Hc; lia). assert (He : hd_ne 61%N (s ++ rest)) by (rewrite Es, Ec; cbn; unfold digit in Hc; lia).
    assert (Ao : acc (opp 0) so (s ++ rest) (EBin o)) by (apply (@a_op 0 o [] so); [destruct Ho as [->| ->]; reflexivity|apply ws_nil|assumption..]).
    rewrite (op_found _ _ (Ao pre)). replace (length pre + length so) with (length (pre ++ so)) by apply app_length. rewrite (app_assoc pre so).
    rewrite (@primary_run g z t s rest Hz Hs St (pre ++ so)). rewrite <- app_length. rewrite app_assoc. rewrite !app_length in L.
    rewrite (IH ((pre ++ so) ++ s) (EBin o x (EInt z)) fuel) by (destruct Hso as (w' & -> & _); destruct Ho as [->| ->]; cbn in L; lia).
    cbn [advance_success add_commit]. unfold p_or. cbn [flat_map app number_lines shift fst snd]. rewrite flat_shift. f_equal; [f_equal; rewrite !app_length; lia|].
    f_equal. f_equal; [f_equal; rewrite !app_length; lia|]. f_equal; [f_equal; rewrite !app_length; lia|]. apply flat_map_ext. intros [a b]. unfold shift. cbn [fst snd]. f_equal. f_equal; rewrite !app_length; lia.
Qed.
Lemma chain_done : forall g q inp off v n w e, g inp off = (Success v n, w) -> q inp (off + n) = Failure e false -> w_chain_left1 g (w_leaf q) inp off = (Success (v : expr) n, w).
Proof.
  intros g q inp off v n w e E1 E2. unfold w_chain_left1. rewrite E1. unfold chain_fuel. cbn [w_rest]. unfold w_leaf at 1. rewrite E2. cbn. rewrite ?app_nil_r, ?Nat.add_0_r. reflexivity.
Qed.
Lemma expression_after : forall s r ps f v lg, wt_primary_of nd show (wt_expression_fuel nd show (length (s ++ r))) (s ++ r) 0 = (Success v (length s), lg) -> product_tail r ps f ->
  wt_expression nd show (s ++ r) 0 = (Success (f v) (length (s ++ r)), lg ++ op_line (s ++ r) (length s) :: flat_map (number_lines (s ++ r)) (map (shift (length s)) ps)).
Proof.
  intros s r ps f v lg P H. unfold wt_expression. cbn [wt_expression_fuel]. unfold wt_expression_of. apply name_run. unfold wt_comparative.
  assert (R : forall k, k < 4 -> exists e, opp k (s ++ r) (0 + length (s ++ r)) = Failure e false).
  { intros k Hk. assert (R : rej (opp k) ([] ++ []) false) by (apply r_op with (s := []); [exact Hk|apply ws_nil|exact I]). destruct (R (s ++ r)) as [e E]. exists e. now rewrite app_nil_r in E. }
  destruct (R 3 ltac:(lia)) as [e3 E3]. destruct (R 2 ltac:(lia)) as [e2 E2]. destruct (R 1 ltac:(lia)) as [e1 E1].
  apply name_run. refine (chain_done _ _ _ _ _ E3). apply name_run. refine (chain_done _ _ _ _ _ E2). apply name_run. refine (chain_done _ _ _ _ _ E1). apply name_run.
  unfold w_chain_left1. rewrite P. cbn [Nat.add].
  rewrite (@rest_run _ r ps f H s v (chain_fuel (s ++ r) (length s))) by (unfold chain_fuel; rewrite app_length; lia).
  cbn [advance_success add_commit]. rewrite flat_shift, app_length, (Nat.add_comm (length s)). reflexivity.
Qed.
Lemma expression_run : forall z t s r ps f, int_text z t -> lx t s -> product_tail r ps f ->
  wt_expression nd show (s ++ r) 0 = (Success (f (EInt z)) (length (s ++ r)), flat_map (number_lines (s ++ r)) ((0, length s) :: map (shift (length s)) ps)).
Proof.
  intros z t s r ps f Hz Hs H. exact (@expression_after s r ps f _ _ (@primary_run _ z t s r Hz Hs (tail_stop H) []) H).
Qed.

(** *** Names *)
Lemma sa_right : forall A B C (k : parser N A -> parser N B -> parser N C) (g : wparser A) (h : wparser B) l ps, says re_line g l ps -> mute h -> says re_line (w_two k g h) l ps.
Proof.
  intros A B C k g h l ps H M pre. specialize (H pre). unfold w_two. destruct (g (pre ++ l) (length pre)) as [[v n|e c| |] w]; try exact H. specialize (M (pre ++ l) (length pre + n)).
  destruct (h _ _) as [o2 w2]. cbn [snd] in *. subst w2. now rewrite app_nil_r.
Qed.
Lemma sa_spaced : forall A (g : wparser A) l ps, no_ws l -> says re_line g l ps -> says re_line (wt_spaced g) l ps.
Proof.
  intros A g l ps Hl H. unfold wt_spaced. apply sa_right; [|apply mu_leaf]. unfold w_skip_left. change l with ([] ++ l).
  replace ps with ([] ++ map (Nat.add (length (@nil N))) ps) by apply map_id. eapply s_two; [apply we_leaf|apply a_tspace; [apply ws_nil|exact Hl]|apply s_mute, mu_leaf|exact H].
Qed.
Lemma sa_regex : forall find l, says re_line (w_regex (on_input show) find) l [0].
Proof. intros find l pre. unfold w_regex. rewrite input_at. cbn [map snd]. unfold re_line. rewrite Nat.add_0_r, skipn_app, skipn_all, Nat.sub_diag. reflexivity. Qed.
Lemma sa_ident : forall l, no_ws l -> says re_line (wt_ident show) l [0].
Proof. intros l H. now apply sa_spaced, sa_regex. Qed.
Lemma sa_no : forall A B C (k : parser N A -> parser N B -> parser N C) p (h : wparser B) l c, rej p l c -> says re_line (w_two k (w_leaf p) h) l [].
Proof. intros A B C k p h l c H. eapply s_two_no; [apply we_leaf|exact H|apply s_mute, mu_leaf]. Qed.
Section Name.
Variables (g : wparser expr) (p : parser N expr).
Hypothesis Hg : werases g p.
Variables (x : name) (w rest : list N).
Hypotheses (Hx : word x) (Pn : plain_name x) (Hw : ws w) (Hs : stop rest).
Local Lemma n_rest : no_ws rest /\ hd_ne 40%N rest /\ hd_ne 91%N rest /\ fol 0 (x ++ w) rest.
Proof. destruct rest as [|y r]; [repeat split|]. cbn in *. repeat split; lia. Qed.
Local Lemma n_text : no_ws (x ++ w ++ rest).
Proof. now apply solid_no_ws, word_solid. Qed.
Local Lemma n_bool : rej bool_literal (x ++ w ++ rest) false.
Proof.
  destruct n_rest as (Hr & _ & _ & Hf). pose proof (@fol_ident x w rest Hx Hw Hf) as Hi. destruct Pn as [Pf Pt].
  apply (@r_boollit [] (x ++ w ++ rest)); [apply ws_nil|apply n_text| |].
  - intros [r E]. apply Pt. clear -E Hx Hi. change (bs "true") with [116; 114; 117; 101]%N in *.
    assert (K : forall c, ident_char c = true -> forall q, w ++ rest <> c :: q) by (intros c Hc q Eq; rewrite Eq in Hi; cbn in Hi; congruence).
    destruct x as [|c1 x1]; [now apply word_ne in Hx|]. cbn in E. inversion E as [[E1 E']]. subst c1.
    destruct x1 as [|c2 x2]; [cbn in E'; exfalso; eapply K; [|exact E']; reflexivity|]. cbn in E'. inversion E' as [[E2 E'']]. subst c2.
    destruct x2 as [|c3 x3]; [cbn in E''; exfalso; eapply K; [|exact E'']; reflexivity|]. cbn in E''. inversion E'' as [[E3 E3']]. subst c3.
    destruct x3 as [|c4 x4]; [cbn in E3'; exfalso; eapply K; [|exact E3']; reflexivity|]. cbn in E3'. inversion E3' as [[E4 E4']]. subst c4.
    now exists x4.
  - destruct x as [|c x']; [now apply word_ne in Hx|]. cbn. intros ->. apply Pf. now exists x'.
Qed.
Local Lemma n_acc : acc (primary_of nd p) (x ++ w) rest (ESymbol x).
Proof.
  destruct n_rest as (Hr & _ & _ & Hf). pose proof (@fol_ident x w rest Hx Hw Hf) as Hi. unfold primary_of. apply a_name.
  apply a_or2; [apply r_or; [now apply (@r_before_bool nd nd_ascii p [] x w rest); [apply ws_nil|..]|rewrite <- app_assoc; apply n_bool]|].
  unfold identifier. apply a_name, a_map. apply (@a_ident x []); try assumption. apply ws_nil.
Qed.
Local Lemma n_says : says re_line (wt_primary_of nd show g) (x ++ w ++ rest) [0; 0; 0; 0].
Proof.
  destruct n_rest as (Hr & R40 & R91 & Hf). pose proof (@fol_ident x w rest Hx Hw Hf) as Hi. pose proof n_text as T.
  destruct (word_hd (w ++ rest) Hx) as (c & t & E & Hc).
  assert (D : forall k, ~ letter_ k -> hd_ne k (x ++ w ++ rest)) by (intros k Hk; rewrite E; cbn; intros ->; contradiction).
  assert (Ai : acc ident (x ++ w) rest x) by (apply (@a_ident x []); try assumption; apply ws_nil).
  pose proof (e_ident show) as EI. pose proof (e_integer nd show) as EN.
  assert (P : rej (paren_expr p) (x ++ w ++ rest) false) by (apply (@r_paren p [] (x ++ w ++ rest)); [apply ws_nil|exact T|apply D; unfold letter_; lia]).
  assert (In : rej (t_integer nd) (x ++ w ++ rest) false) by (apply (@r_int nd nd_ascii [] (x ++ w ++ rest)); [apply ws_nil|exact T|rewrite E; unfold letter_, digit in *; lia]).
  assert (St : rej string_literal (x ++ w ++ rest) false) by (apply (@r_strlit [] (x ++ w ++ rest)); [apply ws_nil|intros _; apply D; unfold letter_; lia]).
  assert (Fc : rej (function_call p) (x ++ w ++ rest) false) by (apply (@r_fcall2 p [] x w rest); try assumption; apply ws_nil).
  assert (Lc : rej (labelled_call p) (x ++ w ++ rest) false) by (apply (@r_lcall2 p [] x w rest); try assumption; apply ws_nil).
  assert (Ar : rej (array_literal p) (x ++ w ++ rest) false) by (apply (@r_arr p [] (x ++ w ++ rest)); [apply ws_nil|exact T|apply D; unfold letter_; lia]).
  assert (EP : werases (wt_paren_expr g) (paren_expr p)) by (unfold wt_paren_expr, paren_expr; repeat first [assumption|apply we_leaf|apply we_map|apply we_skip_left|apply we_skip_right]).
  assert (EF : werases (wt_function_call show g) (function_call p)).
  { unfold wt_function_call, function_call. apply we_name, we_attempt, e_spaced, we_map, we_and; [exact EI|]. apply we_surround; try apply we_leaf. apply we_many0_sep; [exact Hg|apply we_leaf]. }
  assert (EL : werases (wt_labelled_call show g) (labelled_call p)).
  { unfold wt_labelled_call, labelled_call, wt_param, param. apply we_name, we_attempt, e_spaced, we_map, we_and; [exact EI|]. apply we_surround; try apply we_leaf. apply we_many1_sep; [|apply we_leaf].
    apply we_map, we_and; [|exact Hg]. apply we_skip_right; [exact EI|apply we_leaf]. }
  assert (EA : werases (wt_array_literal g) (array_literal p)).
  { unfold wt_array_literal, array_literal. apply we_name, e_spaced, we_map, we_surround; try apply we_leaf. apply we_many0_sep; [exact Hg|apply we_leaf]. }
  assert (Q : forall A B (h : wparser A) (b : wparser B), says re_line (w_and (wt_ident show) (w_surround (w_leaf lparen) h b)) (x ++ w ++ rest) [0] /\
    says re_line (w_and (wt_ident show) (w_surround (w_leaf lbracket) h b)) (x ++ w ++ rest) [0]).
  { intros A B h b. split; unfold w_and; rewrite app_assoc; change [0] with ([0] ++ map (Nat.add (length (x ++ w))) []); (eapply s_two; [exact EI|exact Ai|rewrite <- app_assoc; now apply sa_ident|]);
      eapply sa_no; apply (@r_ttag _ _ []); try assumption; apply ws_nil. }
  unfold wt_primary_of. apply s_one. change [0; 0; 0; 0] with (((((([] ++ [0]) ++ []) ++ [0]) ++ [0]) ++ []) ++ [0]).
  rewrite <- (app_nil_r (((((([] ++ [0]) ++ []) ++ [0]) ++ [0]) ++ []))).
  eapply s_or2; [repeat apply we_or; try eassumption; apply we_leaf|repeat apply r_or; try assumption; apply n_bool| |].
  2: { unfold wt_identifier. apply s_one, s_one. now apply sa_ident. }
  eapply s_or2; [repeat apply we_or; try eassumption; apply we_leaf|repeat apply r_or; assumption| |apply s_mute, mu_leaf].
  eapply s_or2; [repeat apply we_or; try eassumption; apply we_leaf|repeat apply r_or; assumption| |].
  2: { unfold wt_array_literal. apply s_one, sa_spaced; [exact T|]. apply s_one. eapply sa_no. apply (@r_ttag _ _ []); [apply ws_nil|exact T|apply (D 91%N); unfold letter_; lia]. }
  eapply s_or2; [repeat apply we_or; try eassumption; apply we_leaf|repeat apply r_or; assumption| |].
  2: { unfold wt_labelled_call. apply s_one, s_one, sa_spaced; [exact T|]. apply s_one. apply Q. }
  eapply s_or2; [repeat apply we_or; try eassumption; apply we_leaf|repeat apply r_or; assumption| |].
  2: { unfold wt_function_call. apply s_one, s_one, sa_spaced; [exact T|]. apply s_one. apply Q. }
  eapply s_or2; [repeat apply we_or; eassumption|repeat apply r_or; assumption| |apply s_mute, mu_leaf].
  eapply s_or2; [exact EP|exact P| |].
  - unfold wt_paren_expr. apply s_one. apply sa_right; [|apply mu_leaf]. eapply sa_no. apply (@r_ttag _ _ []); [apply ws_nil|exact T|apply (D 40%N); unfold letter_; lia].
  - unfold wt_integer. apply s_one, sa_spaced; [exact T|]. apply s_one, s_one, sa_regex.
Qed.
End Name.
Lemma expression_name : forall x s r ps f, word x -> plain_name x -> lx x s -> product_tail r ps f ->
  wt_expression nd show (s ++ r) 0 = (Success (f (ESymbol x)) (length (s ++ r)), repeat (re_line (s ++ r) 0) 4 ++ op_line (s ++ r) (length s) :: flat_map (number_lines (s ++ r)) (map (shift (length s)) ps)).
Proof.
  intros x s r ps f Hx Pn (w & -> & Hw) H. refine (@expression_after _ _ _ _ _ (repeat (re_line ((x ++ w) ++ r) 0) 4) _ H). set (n := length ((x ++ w) ++ r)).
  assert (E : werases (wt_expression_fuel nd show n) (expression_fuel nd n)).
  { clear. induction n as [|n IH]; [apply we_leaf|]. cbn [wt_expression_fuel expression_fuel]. now apply e_expression_of, e_primary. }
  pose proof (e_primary nd show E ((x ++ w) ++ r) 0) as F. pose proof (@n_acc (expression_fuel nd n) x w r Hx Pn Hw (tail_stop H) []) as A. cbn [app length] in A. rewrite A in F.
  pose proof (@n_says _ _ E x w r Hx Pn Hw (tail_stop H) []) as S. cbn [app length] in S. rewrite app_assoc in S.
  destruct (wt_primary_of nd show _ _ 0) as [o lg]. cbn [fst snd] in F, S. subst. reflexivity.
Qed.
End Product.

(** ** The head of a for loop *)
Lemma in_one : forall A B (k : parser N A -> parser N B) (g : wparser A) inp off l, In l (snd (g inp off)) -> In l (snd (w_one k g inp off)).
Proof. intros A B k g inp off l H. unfold w_one. destruct (g inp off) as [o w]. exact H. Qed.
Lemma in_two1 : forall A B C (k : parser N A -> parser N B -> parser N C) (g : wparser A) h inp off l, In l (snd (g inp off)) -> In l (snd (w_two k g h inp off)).
Proof.
  intros A B C k g h inp off l H. unfold w_two. destruct (g inp off) as [[v n|e c| |] w]; try exact H. cbn [snd] in H. destruct (h inp (off + n)) as [o2 w2]. apply in_or_app. now left.
Qed.
Lemma in_two2 : forall A B C (k : parser N A -> parser N B -> parser N C) (g : wparser A) h inp off v n l, fst (g inp off) = Success v n -> In l (snd (h inp (off + n))) ->
  In l (snd (w_two k g h inp off)).
Proof.
  intros A B C k g h inp off v n l E H. unfold w_two. destruct (g inp off) as [o w]. cbn [fst] in E. subst o. destruct (h inp (off + n)) as [o2 w2]. apply in_or_app. now right.
Qed.
Lemma in_or1 : forall A (g h : wparser A) inp off l, In l (snd (g inp off)) -> In l (snd (w_or g h inp off)).
Proof. intros A g h inp off l H. unfold w_or. destruct (g inp off) as [[v n|e [|]| |] w]; try exact H. destruct (h inp off) as [o2 w2]. apply in_or_app. now left. Qed.
Lemma in_or2 : forall A (g h : wparser A) inp off e l, fst (g inp off) = Failure e false -> In l (snd (h inp off)) -> In l (snd (w_or g h inp off)).
Proof. intros A g h inp off e l E H. unfold w_or. destruct (g inp off) as [o w]. cbn [fst] in E. subst o. destruct (h inp off) as [o2 w2]. apply in_or_app. now right. Qed.
Lemma in_loop : forall A (g : wparser A) rend inp l fuel cur items all w, In l w -> In l (snd (w_loop fuel g (None : option (wparser unit)) rend inp cur items all w)).
Proof.
  intros A g rend inp l. induction fuel as [|fuel IH]; intros cur items all w H; cbn [w_loop]; [exact H|]. destruct (rep_stop rend (length items)); [exact H|].
  assert (K : forall w1, In l (w ++ w1)) by (intros w1; apply in_or_app; now left). destruct (g inp cur) as [[v n|e c| |] w1]; [apply IH|..]; apply K.
Qed.
Lemma in_rep : forall A (g : wparser A) r inp off l, In l (snd (g inp off)) -> In l (snd (w_rep g r (None : option (wparser unit)) inp off)).
Proof.
  intros A g r inp off l H. unfold w_rep. destruct (g inp off) as [[v n|e c| |] w]; cbn [snd] in H; try exact H.
  pose proof (@in_loop A g (rg_end r) inp l (rep_fuel (rg_end r) inp off) (off + n) [v] n w H) as K. destruct (w_loop _ g _ _ _ _ _ _ w) as [d w']. exact K.
Qed.
Section For.
Variable nd : N -> bool.
Hypothesis nd_ascii : forall x, (x < 128)%N -> (nd x = true <-> digit x).
Variable show : shown.
Variable show_params : outcome N (name * expr * expr) -> list N.
Lemma params_return : hoare (for_params nd) (@ToysParseSound.any _).
Proof.
  eapply hT_right; [eapply hT_right; [eapply hT_and; [eapply hT_right; [eapply hT_and; [eapply hT_right; [eapply hT_left; [apply h_ttag|apply h_ident]|eapply hT_and; [eapply hT_and; [apply h_tspace|apply h_tag_led]|apply h_tspace]]|now apply h_expression]|apply h_ttag]|now apply h_expression]|apply h_tspace]|apply h_ttag].
Qed.
Definition params_line (inp : list N) (off : nat) : Log.line := Line LDebug (bs "params" ++ bs " = " ++ show_params (for_params nd inp off)).
Lemma params_logged : forall inp off, off <= length inp -> In (params_line inp off) (snd (w_log_map (wt_for_params nd show) (bs "params") LDebug show_params inp off)).
Proof.
  intros inp off L. pose proof (@params_return inp off L) as R. pose proof (e_params nd show inp off) as E. unfold params_line, w_log_map. rewrite <- E in R |- *. clear E.
  destruct (wt_for_params nd show inp off) as [[v n|e c| |] w]; cbn [fst snd] in *; try contradiction; apply in_or_app; right; now left.
Qed.
Lemma for_logged : forall ln pre w r, ws w -> no_ws r ->
  In (params_line (pre ++ bs "for" ++ w ++ r) (length (pre ++ bs "for" ++ w))) (snd (wt_for nd show show_params ln (pre ++ bs "for" ++ w ++ r) (length pre))).
Proof.
  intros ln pre w r Hw Hr. unfold wt_for, w_name, w_attempt, wt_spaced, w_skip_right, w_skip_left, w_map, w_and.
  assert (T : t_space (pre ++ bs "for" ++ w ++ r) (length pre) = Success tt 0) by (apply (@a_tspace [] (bs "for" ++ w ++ r)); [apply ws_nil|cbn; lia]).
  assert (F : acc (p_skip_right (p_tag (bs "for")) t_space) (bs "for" ++ w) r (bs "for")) by (eapply a_skip_right; [apply a_tag|now apply a_tspace]).
  specialize (F pre). rewrite <- app_assoc in F.
  apply in_one, in_one, in_two1. eapply in_two2; [exact T|]. rewrite Nat.add_0_r. apply in_one, in_two1. eapply in_two2; [exact F|]. rewrite <- app_length. apply params_logged. rewrite !app_length. lia.
Qed.
Lemma line_logged : forall ln p pre w r, werases ln p -> ws pre -> ws w -> no_ws r ->
  In (params_line (pre ++ bs "for" ++ w ++ r) (length (pre ++ bs "for" ++ w))) (snd (wt_line_of nd show show_params ln (pre ++ bs "for" ++ w ++ r) 0)).
Proof.
  intros ln p pre w r Hl Hp Hw Hr. unfold wt_line_of, w_name, wt_spaced, w_skip_right, w_skip_left. pose proof (e_expression nd show) as X.
  assert (T : t_space (pre ++ bs "for" ++ w ++ r) 0 = Success tt (length pre)) by (apply (@a_tspace pre (bs "for" ++ w ++ r) Hp) with (pre := []); cbn; lia).
  apply in_one, in_two1. eapply in_two2; [exact T|]. cbn [Nat.add]. do 3 apply in_or1.
  assert (W : forall A (g : wparser A) q, werases g q -> rej q (bs "for" ++ w ++ r) false -> exists e, fst (g (pre ++ bs "for" ++ w ++ r) (length pre)) = Failure e false).
  { intros A g q Hg Hq. destruct (Hq pre) as [e E]. exists e. now rewrite (Hg _ _). }
  destruct (W _ (w_or (w_or (wt_println nd show) (wt_while nd show ln)) (wt_if nd show ln)) (p_or (p_or (println nd) (while_p nd p)) (if_p nd p))) as [e E].
  - repeat apply we_or; [unfold wt_println, println|unfold wt_while, while_p|unfold wt_if, if_p]; apply we_name, we_attempt, e_spaced;
      repeat first [assumption|apply we_leaf|apply we_name|apply we_attempt|apply we_map|apply we_and|apply we_skip_left|apply we_skip_right|apply we_surround|apply we_opt].
  - assert (K : forall c k, c <> 102%N -> ~ kw_paren (c :: k) (bs "for" ++ w ++ r)) by (intros c k Hc; apply kw_hd; intros Q; apply Hc; symmetry; exact Q).
    repeat apply r_or; [apply r_println|apply r_while|apply r_if]; try (cbn; lia); apply K; discriminate.
  - eapply in_or2; [exact E|]. now apply for_logged.
Qed.
End For.

(** ** C152 *)
(** What [lines] and [program] read is what they read without the logger. *)
Theorem C152_outcome : forall nd show show_params text,
  fst (wt_lines nd show show_params text 0) = lines nd text 0 /\ fst (wt_program nd show show_params text 0) = program nd text 0.
Proof. intros nd show show_params text. split; [apply e_lines|apply e_program]. Qed.

(** Every line tells the outcome of the operator or of the head of a for loop somewhere in the text. *)
Theorem C152_true : forall nd show show_params text l,
  In l (snd (wt_lines nd show show_params text 0)) \/ In l (snd (wt_program nd show show_params text 0)) ->
  exists off, l = Line LDebug (bs "operator" ++ bs " = " ++ on_op show (p_or (t_sym (chr "*")) (t_sym (chr "/")) text off)) \/
    l = Line LDebug (bs "params" ++ bs " = " ++ show_params (for_params nd text off)) \/
    l = Line LDebug (bs "regex: input = " ++ on_input show (skipn off text)).
Proof.
  intros nd show show_params text l H. assert (K : run_line nd show show_params text l); [|exact K].
  pose proof (t_line nd show show_params) as T. pose proof (t_expression nd show show_params) as X.
  destruct H as [H|H]; refine (proj1 (Forall_forall _ _) _ l H).
  - assert (G : tells (run_line nd show show_params) (wt_lines nd show show_params)); [|apply G]. unfold wt_lines, w_skip_right, w_many1.
    repeat first [assumption|apply t_leaf|apply t_two|apply t_rep0].
  - assert (G : tells (run_line nd show show_params) (wt_program nd show show_params)); [|apply G].
    unfold wt_program, wt_top_level_definition, wt_global_variable_definition, wt_function_definition, wt_block, wt_ident, wt_spaced, w_name, w_map, w_skip_left, w_skip_right, w_and, w_surround, w_many0, w_many0_sep.
    repeat first [assumption|apply t_leaf|apply t_regex|apply t_one|apply t_two|apply t_or|apply t_rep0|apply t_rep1].
Qed.

(** For each multiplication and division of what was read, the log has a line of its own that tells of an operator found. *)
Theorem C152_products : forall nd show show_params text,
  (forall es n w, wt_lines nd show show_params text 0 = (Success es n, w) -> many (found_line show text) (list_sum (map products es)) w) /\
  (forall e n w, wt_program nd show show_params text 0 = (Success e n, w) -> many (found_line show text) (products e) w).
Proof. intros nd show show_params text. split; intros v n w E; [exact (k_lines nd show show_params _ _ E)|exact (k_program nd show show_params _ _ E)]. Qed.

(** A product of numbers: the expression is read to its end, and the log has one line for the place after each number, in the order of the text. *)
Theorem C152_product : forall nd show, (forall x, (x < 128)%N -> (nd x = true <-> digit x)) -> forall z t s r ps f,
  int_text z t -> lx t s -> product_tail r ps f ->
  wt_expression nd show (s ++ r) 0 = (Success (f (EInt z)) (length (s ++ r)), 
    flat_map (number_lines show (s ++ r)) ((0, length s) :: map (shift (length s)) ps)).
Proof. intros nd show Hnd z t s r ps f Hz Hs H. exact (@expression_run nd Hnd show z t s r ps f Hz Hs H). Qed.

(** A name before such a product: four runs of regex before the name stand in the log (integer, function_call, labelled_call and identifier), also those that found nothing. *)
Theorem C152_name : forall nd show, (forall x, (x < 128)%N -> (nd x = true <-> digit x)) -> forall x s r ps f,
  word x -> plain_name x -> lx x s -> product_tail r ps f ->
  wt_expression nd show (s ++ r) 0 = (Success (f (ESymbol x)) (length (s ++ r)),
    repeat (re_line show (s ++ r) 0) 4 ++ op_line show (s ++ r) (length s) :: flat_map (number_lines show (s ++ r)) (map (shift (length s)) ps)).
Proof. intros nd show Hnd x s r ps f Hx Pn Hs H. exact (@expression_name nd Hnd show x s r ps f Hx Pn Hs H). Qed.

(** A text that begins with for: the log has the outcome of what follows the word as the head of a loop, whether it is one or not. *)
Theorem C152_for : forall nd show show_params, (forall x, (x < 128)%N -> (nd x = true <-> digit x)) -> forall a w r, ws a -> ws w -> no_ws r ->
  let text := a ++ bs "for" ++ w ++ r in
  In (Line LDebug (bs "params" ++ bs " = " ++ show_params (for_params nd text (length (a ++ bs "for" ++ w))))) (snd (wt_lines nd show show_params text 0)).
Proof.
  intros nd show show_params Hnd a w r Ha Hw Hr text. apply in_two1, in_two1, in_rep. unfold wt_line. cbn [wt_line_fuel].
  exact (@line_logged nd Hnd show show_params _ _ a w r (e_line_fuel nd show show_params _) Ha Hw Hr).
Qed.

(** *** Cases *)
Definition show0 : shown := Shown (fun o => match o with Success c _ => bs "found " ++ [c] | _ => bs "none" end) (fun l => l).
Definition show1 (o : outcome N (name * expr * expr)) : list N := match o with Success (x, _, _) _ => bs "loop over " ++ x | _ => bs "none" end.
Definition log (text : string) := map l_text (snd (wt_lines is_ascii_digit show0 show1 (bs text) 0)).
(** The lines that regex did not write. *)
Definition told (text : string) := filter (fun l => match l with c :: _ => negb (c =? chr "r")%N | [] => true end) (log text).
Example C152_product_line : fst (wt_lines is_ascii_digit show0 show1 (bs "2 * 3/4;") 0) = Success [EBin ODiv (EBin OMul (EInt 2) (EInt 3)) (EInt 4)] 8 /\
  told "2 * 3/4;" = [bs "operator = found *"; bs "operator = found /"; bs "operator = none"].
Proof. vm_compute. now split. Qed.
(** The operators of an argument come before the one that follows the call; the bounds of a loop come before the loop. *)
Example C152_order : told "f(1,2*3);" = [bs "operator = none"; bs "operator = found *"; bs "operator = none"; bs "operator = none"] /\
  told "for (i in 1 to 3) {1*2;}" = [bs "operator = none"; bs "operator = none"; bs "params = loop over i"; bs "operator = found *"; bs "operator = none"].
Proof. vm_compute. now split. Qed.
(** A rejected text leaves lines as well, here for C152_for with r = (i in 1) {} and one blank before. *)
Example C152_rejected : is_fail (fst (wt_lines is_ascii_digit show0 show1 (bs "for (i in 1) {}") 0)) = true /\
  told "for (i in 1) {}" = [bs "operator = none"; bs "params = none"; bs "operator = none"].
Proof. vm_compute. now split. Qed.
(** There can be more lines than operators of the result: [program] steps back over the definition that has no semicolon. *)
Example C152_more : exists n, fst (wt_program is_ascii_digit show0 show1 (bs "fn f(){a*b}") 0) = Success (EProgram []) n /\
  map l_text (snd (wt_program is_ascii_digit show0 show1 (bs "fn f(){a*b}") 0)) = map (app (bs "regex: input = ")) ([bs "f(){a*b}"; bs "){a*b}"] ++ repeat (bs "a*b}") 5) ++ [bs "operator = found *"] ++
    map (app (bs "regex: input = ")) (repeat (bs "b}") 4) ++ [bs "operator = none"].
Proof. eexists. vm_compute. now split. Qed.
(** An expression with its whole log. *)
Example C152_whole : wt_expression is_ascii_digit show0 (bs "x*3") 0 = (Success (EBin OMul (ESymbol (bs "x")) (EInt 3)) 3,
  map (Line LDebug) [bs "regex: input = x*3"; bs "regex: input = x*3"; bs "regex: input = x*3"; bs "regex: input = x*3"; bs "operator = found *"; bs "regex: input = 3"; bs "operator = none"]).
Proof. vm_compute. reflexivity. Qed.
Example C152_product_hypotheses : int_text 2 (bs "2") /\ lx (bs "2") (bs "2 ") /\ product_tail (bs "*3/-4") [(1, 2); (3, 5)] (fun x => EBin ODiv (EBin OMul x (EInt 3)) (EInt (-4))) /\
  word (bs "x") /\ plain_name (bs "x") /\ lx (bs "x") (bs "x").
Proof.
  assert (D : forall c, (48 <= c <= 57)%N -> digits1 [c]) by (intros c Hc; split; [constructor; [exact Hc|constructor]|congruence]).
  assert (L : forall t, lx t t) by (intros t; exists []; split; [now rewrite app_nil_r|apply ws_nil]).
  split; [exists [50%N]; split; [apply D; lia|split; [left; now split|lia]]|]. split; [exists [32%N]; split; [reflexivity|repeat constructor]|].
  split; [|split; [exists 120%N, []; repeat split; [unfold letter_; lia|constructor]|split; [split; intros [r E]; discriminate|apply L]]].
  apply (@pt_cons OMul (bs "*") 3 (bs "3") (bs "3") (bs "/-4") [(1, 3)] (fun x => EBin ODiv x (EInt (-4)))); [now left|apply L| |apply L|].
  - exists [51%N]. split; [apply D; lia|]. split; [left; now split|lia].
  - apply (@pt_cons ODiv (bs "/") (-4) (bs "-4") (bs "-4") [] [] (fun x => x)); [now right|apply L| |apply L|apply pt_nil].
    exists [52%N]. split; [apply D; lia|]. split; [right; now split|lia].
Qed.
Print Assumptions C152_outcome.
Print Assumptions C152_true.
Print Assumptions C152_products.
Print Assumptions C152_product.
Print Assumptions C152_name.
Print Assumptions C152_for.
