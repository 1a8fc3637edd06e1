(** The toys parsers write at most one line to the log for each closure they call: the parsers of LogToys.v beside those of MeasureToys.v. *)
From Verif Require Import Base Core Comb Closure RepFacts LitFacts Text Json Calc Toys ToysParse Measure MeasureJson MeasureUri MeasureToys Log LogToys.
Set Implicit Arguments.
Local Open Scope string_scope.
Local Open Scope nat_scope.
Local Open Scope list_scope.

Definition fewer {A} (r : outcome N A * list Log.line) (s : outcome N A * meas) : Prop := fst r = fst s /\ length (snd r) <= cnt (snd s).
Definition below {A} (g : wparser A) (m : mparser A) : Prop := forall inp off, fewer (g inp off) (m inp off).
Lemma b_leaf : forall A (p : parser N A) m, erases m p -> below (w_leaf p) m.
Proof. intros A p m H inp off. split; [now rewrite H|cbn; lia]. Qed.
Lemma b_regex : forall on find, below (w_regex on find) (m_leaf (p_regex find)).
Proof. intros on find inp off. unfold w_regex, m_leaf, p_regex. destruct (ps_input inp off); split; cbn; try reflexivity; lia. Qed.
Ltac both_runs H := match type of H with fewer (?g ?i ?o) (?m ?i ?o) => let w := fresh "w" in let c := fresh "ms" in let o1 := fresh "o" in let o2 := fresh "o" in let E := fresh "E" in
  destruct (g i o) as [o1 w]; destruct (m i o) as [o2 c]; destruct H as [E H]; cbn [fst snd] in E, H; subst o2 end.
Lemma b_one : forall A B (k : parser N A -> parser N B) g m, below g m -> below (w_one k g) (m_one k m).
Proof. intros A B k g m H inp off. unfold w_one, m_one. specialize (H inp off). both_runs H. split; [reflexivity|cbn; lia]. Qed.
Lemma b_id : forall A (g : wparser A) m, below g m -> below g (m_id m).
Proof. intros A g m H inp off. unfold m_id, m_map, m_one, p_map. specialize (H inp off). both_runs H. split; [now destruct o|cbn; lia]. Qed.
Lemma b_lazy : forall A (g : wparser A) m, below g m -> below g (m_lazy m).
Proof. intros A g m H inp off. unfold m_lazy, m_one, p_lazy. specialize (H inp off). both_runs H. split; [reflexivity|cbn; lia]. Qed.
Lemma b_log_map : forall A (g : wparser A) m name lv f, below g m -> below (w_log_map g name lv f) (m_id m).
Proof. intros A g m name lv f H inp off. unfold w_log_map, m_id, m_map, m_one, p_map. specialize (H inp off). both_runs H. destruct o; split; cbn; try reflexivity; rewrite ?app_length; cbn; lia. Qed.
Lemma b_two : forall A B C (k : parser N A -> parser N B -> parser N C) g h m n, below g m -> below h n -> below (w_two k g h) (m_two k m n).
Proof.
  intros A B C k g h m n H1 H2 inp off. unfold w_two, m_two. specialize (H1 inp off). both_runs H1. destruct o as [x i|e c| |]; try (split; [reflexivity|cbn; lia]).
  specialize (H2 inp (off + i)). both_runs H2. split; [reflexivity|]. cbn. rewrite app_length. lia.
Qed.
Lemma b_or : forall A (g h : wparser A) m n, below g m -> below h n -> below (w_or g h) (m_or m n).
Proof.
  intros A g h m n H1 H2 inp off. unfold w_or, m_or. specialize (H1 inp off). both_runs H1. destruct o as [x i|e [|]| |]; try (split; [reflexivity|cbn; lia]).
  specialize (H2 inp off). both_runs H2. split; [reflexivity|]. cbn. rewrite app_length. lia.
Qed.
Lemma b_opt : forall A (g : wparser A) m, below g m -> below (w_opt g) (m_opt m).
Proof. intros A g m H. apply b_or; [now apply b_one, b_one|]. apply b_leaf, er_leaf. Qed.
Definition below_opt {B} (s : option (wparser B)) (t : option (mparser B)) : Prop := match s, t with Some h, Some n => below h n | None, None => True | _, _ => False end.
Lemma b_loop : forall A B (g : wparser A) m (s : option (wparser B)) t, below g m -> below_opt s t -> forall fuel rend inp cur items all w c, length w <= cnt c ->
  fst (w_loop fuel g s rend inp cur items all w) = fst (m_loop fuel m t rend inp cur items all c) /\
  length (snd (w_loop fuel g s rend inp cur items all w)) <= cnt (snd (m_loop fuel m t rend inp cur items all c)).
Proof.
  intros A B g m s t H1 H2. induction fuel as [|fuel IH]; intros rend inp cur items all w c L; cbn [w_loop m_loop]; [now split|]. destruct (rep_stop rend (length items)); [now split|].
  destruct s as [h|], t as [n|]; try contradiction.
  - specialize (H2 inp cur). both_runs H2. destruct o as [x i|e b| |]; try (split; [reflexivity|cbn; rewrite app_length; lia]).
    specialize (H1 inp (cur + i)). both_runs H1. destruct o as [y j|e b| |]; try (split; [reflexivity|cbn; rewrite !app_length; lia]). apply IH. cbn. rewrite !app_length. lia.
  - specialize (H1 inp cur). both_runs H1. destruct o as [y j|e b| |]; try (split; [reflexivity|cbn; rewrite !app_length; lia]). apply IH. cbn. rewrite !app_length. lia.
Qed.
Lemma b_rep : forall A B (g : wparser A) m r (s : option (wparser B)) t, below g m -> below_opt s t -> below (w_rep g r s) (m_rep m r t).
Proof.
  intros A B g m r s t H1 H2 inp off. unfold w_rep, m_rep. pose proof (H1 inp off) as K. both_runs K. destruct o as [x i|e b| |]; try (split; [reflexivity|cbn; lia]).
  pose proof (@b_loop A B g m s t H1 H2 (rep_fuel (rg_end r) inp off) (rg_end r) inp (off + i) [x] i w ms K) as [E L].
  destruct (w_loop _ g s _ inp _ [x] i _) as [d w']. destruct (m_loop _ m t _ inp _ [x] i _) as [d' c']. cbn [fst snd] in *. subst d'. split; [reflexivity|cbn; lia].
Qed.
Lemma b_rest : forall A (g : wparser A) m h n, below g m -> below h n -> forall fuel x, below (w_rest fuel g h x) (m_rest fuel m n x).
Proof.
  intros A g m h n H1 H2. induction fuel as [|fuel IH]; intros x inp off; cbn [w_rest m_rest]; [split; cbn; [reflexivity|lia]|]. unfold m_or, p_or.
  specialize (H2 inp off). both_runs H2. destruct o as [f i|e [|]| |]; try (split; [reflexivity|cbn; lia]).
  specialize (H1 inp (off + i)). both_runs H1. destruct o as [y j|e b| |]; try (split; [reflexivity|cbn; rewrite ?app_length; lia]).
  - specialize (IH (f x y) inp (off + i + j)). both_runs IH. cbn [fst snd]. destruct (advance_success i _) as [v d|e [|]| |]; split; try reflexivity; cbn; rewrite !app_length; lia.
  - destruct (advance_success i _) as [v d|e' [|]| |]; split; try reflexivity; cbn; rewrite !app_length; lia.
Qed.
Lemma b_chain : forall A (g : wparser A) m h n, below g m -> below h n -> below (w_chain_left1 g h) (m_chain_left1 m n).
Proof.
  intros A g m h n H1 H2 inp off. unfold w_chain_left1, m_chain_left1. pose proof (H1 inp off) as K. both_runs K. destruct o as [x i|e b| |]; try (split; [reflexivity|cbn; lia]).
  pose proof (b_rest H1 H2 (chain_fuel inp (off + i)) x inp (off + i)) as R. destruct (w_rest _ g h x inp (off + i)) as [r w2]. destruct (m_rest _ m n x inp (off + i)) as [r' c2]. destruct R as [E L]. cbn [fst snd] in *. subst r'.
  split; [reflexivity|]. cbn. rewrite app_length. lia.
Qed.

(** ** toys/src/parsers.rs *)
Section Toys.
Variable nd : N -> bool.
Variable show : shown.
Variable show_params : outcome N (name * expr * expr) -> list N.
Lemma b_spaced : forall A (g : wparser A) m, below g m -> below (wt_spaced g) (mt_spaced m).
Proof. intros A g m H. apply b_two; [apply b_two; [apply b_leaf, et_space|exact H]|apply b_leaf, et_space]. Qed.
Lemma b_ident : below (wt_ident show) mt_ident.
Proof. apply b_spaced, b_regex. Qed.
Ltac leaf := apply b_leaf; repeat first [apply et_tag | apply et_sym | apply et_space | apply et_comp_op | apply er_elm_ref | apply er_tag | apply er_and | apply er_skip_left | apply er_skip_right | apply er_or | apply er_map_panic | apply er_leaf].
Ltac b1 := first
  [ assumption | apply b_ident
  | match goal with
    | |- below (w_leaf _) _ => leaf
    | |- below (w_log_map _ _ _ _) (m_id _) => apply b_log_map
    | |- below _ (m_cache _) => apply b_id
    | |- below _ (m_id _) => apply b_id
    | |- below _ (m_lazy _) => apply b_lazy
    | |- below (wt_spaced _) _ => apply b_spaced
    | |- below (w_or _ _) _ => apply b_or
    | |- below (w_opt _) _ => apply b_opt
    | |- below (w_chain_left1 _ _) _ => apply b_chain
    | |- below (w_regex _ _) _ => apply b_regex
    | |- below (w_many0_sep _ _) _ => apply b_rep; [|cbn [below_opt]]
    | |- below (w_many1_sep _ _) _ => apply b_rep; [|cbn [below_opt]]
    | |- below (w_many0 _) _ => apply b_rep; [|exact I]
    | |- below (w_many1 _) _ => apply b_rep; [|exact I]
    | |- below (w_surround _ _ _) _ => apply b_two; [|apply b_two]
    end
  | apply b_one | apply b_two ].
Ltac b := repeat b1.
Lemma b_integer : below (wt_integer nd show) (mt_integer nd).
Proof. unfold wt_integer, mt_integer. b. Qed.
Lemma b_expression_of : forall g m, below g m -> below (wt_expression_of show g) (mt_expression_of m).
Proof.
  intros g m H. unfold wt_expression_of, mt_expression_of, wt_comparative, mt_comparative, wt_additive, mt_additive, wt_moditive, mt_moditive, wt_multitive, mt_multitive, mt_mul_op, mt_mod_op, mt_add_op. b.
Qed.
Section Primary.
Variables (g : wparser expr) (m : mparser expr).
Hypothesis E : below g m.
Lemma b_primary_of : below (wt_primary_of nd show g) (mt_primary_of nd m).
Proof.
  unfold wt_primary_of, mt_primary_of, m_cache. apply b_id, b_one, b_id. repeat apply b_or.
  - unfold wt_paren_expr, mt_paren_expr. b.
  - apply b_integer.
  - apply b_leaf, et_string_literal.
  - unfold wt_function_call, mt_function_call. b.
  - unfold wt_labelled_call, mt_labelled_call, wt_param, mt_param. b.
  - unfold wt_array_literal, mt_array_literal. b.
  - apply b_leaf, et_bool_literal.
  - unfold wt_identifier, mt_identifier. b.
Qed.
End Primary.
Lemma b_expression_fuel : forall n, below (wt_expression_fuel nd show n) (mt_expression_fuel nd n).
Proof. induction n as [|n IH]; [intros inp off; split; cbn; [reflexivity|lia]|]. now apply b_expression_of, b_primary_of. Qed.
Lemma b_expression : below (wt_expression nd show) (mt_expression nd).
Proof. intros inp off. apply b_expression_fuel. Qed.
Ltac bl := repeat first [apply b_expression | b1].
Section Line.
Variables (g : wparser expr) (m : mparser expr).
Hypothesis E : below g m.
Lemma b_block : below (wt_block g) (mt_block m).
Proof. unfold wt_block, mt_block. bl. Qed.
Lemma b_line_of : below (wt_line_of nd show show_params g) (mt_line_of nd m).
Proof.
  unfold wt_line_of, mt_line_of, m_cache. apply b_id, b_one, b_spaced. repeat apply b_or; try apply b_lazy.
  - unfold wt_println, mt_println. bl.
  - unfold wt_while, mt_while. bl.
  - unfold wt_if, mt_if, mt_if_head. bl.
  - unfold wt_for, mt_for, wt_for_params, mt_for_params. bl.
  - unfold wt_assignment, mt_assignment. bl.
  - unfold wt_expression_line, mt_expression_line. bl.
  - apply b_block.
Qed.
End Line.
Lemma b_line_fuel : forall n, below (wt_line_fuel nd show show_params n) (mt_line_fuel nd n).
Proof. induction n as [|n IH]; [intros inp off; split; cbn; [reflexivity|lia]|]. now apply b_line_of. Qed.
Lemma b_line : below (wt_line nd show show_params) (mt_line nd).
Proof. intros inp off. apply b_line_fuel. Qed.
Lemma b_lines : below (wt_lines nd show show_params) (mt_lines nd).
Proof. unfold wt_lines, mt_lines. repeat first [apply b_line | b1]. Qed.
Lemma b_program : below (wt_program nd show show_params) (mt_program nd).
Proof.
  unfold wt_program, mt_program, wt_top_level_definition, mt_top_level_definition, wt_global_variable_definition, mt_global, wt_function_definition, mt_function_definition.
  repeat first [apply b_block, b_line | apply b_expression | b1].
Qed.
End Toys.
