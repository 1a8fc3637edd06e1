(** C153: how long the log of the toys parsers gets. *)
From Verif Require Import PropsX PropsI PropsAT Hoare ToysSyntax ToysParseSound ToysParseComplete Runs ChainRules JsonSpec JsonFacts Log LogToys PropsBG ToysSlow.
From Verif Require Import Base Core Comb Closure Text Json Calc Toys ToysParse.
Set Implicit Arguments.
Local Open Scope string_scope.
Local Open Scope nat_scope.
Local Open Scope list_scope.

(** ** At least so many lines *)
Definition long {A} (g : wparser A) (l : list N) (c : nat) : Prop := forall pre, c <= length (snd (g (pre ++ l) (length pre))).
Lemma lo_zero : forall A (g : wparser A) l, long g l 0.
Proof. intros A g l pre. lia. Qed.
Lemma lo_one : forall A B (k : parser N A -> parser N B) g l c, long g l c -> long (w_one k g) l c.
Proof. intros A B k g l c H pre. specialize (H pre). unfold w_one. destruct (g (pre ++ l) (length pre)) as [o w]. exact H. Qed.
Lemma lo_two1 : forall A B C (k : parser N A -> parser N B -> parser N C) g h l c, long g l c -> long (w_two k g h) l c.
Proof.
  intros A B C k g h l c H pre. specialize (H pre). unfold w_two. destruct (g (pre ++ l) (length pre)) as [[v n|e b| |] w]; try exact H. destruct (h _ _) as [o2 w2]. cbn [snd] in *. rewrite app_length. lia.
Qed.
Lemma lo_two : forall A B C (k : parser N A -> parser N B -> parser N C) g h p s rest v c d, werases g p -> acc p s rest v -> long g (s ++ rest) c -> long h rest d ->
  long (w_two k g h) (s ++ rest) (c + d).
Proof.
  intros A B C k g h p s rest v c d E Ha Hg Hh pre. specialize (Hg pre). specialize (Hh (pre ++ s)). specialize (Ha pre). rewrite <- (E _ _) in Ha. rewrite <- app_assoc, app_length in Hh.
  unfold w_two. destruct (g (pre ++ s ++ rest) (length pre)) as [o w]. cbn [fst snd] in *. subst o. destruct (h _ (length pre + length s)) as [o2 w2]. cbn [snd] in *. rewrite app_length. lia.
Qed.
Lemma lo_prefix : forall A B C (k : parser N A -> parser N B -> parser N C) p h s rest v d, acc p s rest v -> long h rest d -> long (w_two k (w_leaf p) h) (s ++ rest) d.
Proof. intros A B C k p h s rest v d Ha H. apply (@lo_two A B C k (w_leaf p) h p s rest v 0 d); [apply we_leaf|exact Ha|apply lo_zero|exact H]. Qed.
Lemma lo_or1 : forall A (g h : wparser A) l c, long g l c -> long (w_or g h) l c.
Proof.
  intros A g h l c H pre. specialize (H pre). unfold w_or. destruct (g (pre ++ l) (length pre)) as [[v n|e [|]| |] w]; try exact H. destruct (h _ _) as [o2 w2]. cbn [snd] in *. rewrite app_length. lia.
Qed.
Lemma lo_or : forall A (g h : wparser A) p l c, werases g p -> rej p l false -> long h l c -> long (w_or g h) l c.
Proof.
  intros A g h p l c E R H pre. specialize (H pre). destruct (R pre) as [e F]. rewrite <- (E _ _) in F. unfold w_or. destruct (g (pre ++ l) (length pre)) as [o w]. cbn [fst] in F. subst o.
  destruct (h (pre ++ l) (length pre)) as [o2 w2]. cbn [snd] in *. rewrite app_length. lia.
Qed.
Lemma lo_loop : forall A (g : wparser A) rend inp fuel cur items all w, length w <= length (snd (w_loop fuel g (None : option (wparser unit)) rend inp cur items all w)).
Proof.
  intros A g rend inp. induction fuel as [|fuel IH]; intros cur items all w; cbn [w_loop]; [apply le_n|]. destruct (rep_stop rend (length items)); [apply le_n|].
  destruct (g inp cur) as [[v n|e c| |] w1]; [specialize (IH (cur + n) (v :: items) (all + n) (w ++ w1)); rewrite app_length in IH; lia|..]; cbn [snd]; rewrite app_length; lia.
Qed.
Lemma lo_rep : forall A (g : wparser A) r l c, long g l c -> long (w_rep g r (None : option (wparser unit))) l c.
Proof.
  intros A g r l c H pre. specialize (H pre). unfold w_rep. destruct (g (pre ++ l) (length pre)) as [[v n|e b| |] w]; cbn [snd] in *; try exact H.
  pose proof (lo_loop g (rg_end r) (pre ++ l) (rep_fuel (rg_end r) (pre ++ l) (length pre)) (length pre + n) [v] n w) as K. destruct (w_loop _ g _ _ _ _ _ _ w) as [d w']. cbn [snd] in *. lia.
Qed.
Lemma lo_le : forall A (g : wparser A) l c d, long g l c -> d <= c -> long g l d.
Proof. intros A g l c d H L pre. specialize (H pre). lia. Qed.

(** ** Parsers that are the same on one input *)
Definition alike {A} (inp : list N) (g h : wparser A) : Prop := forall off, g inp off = h inp off.
Lemma al_refl : forall A inp (g : wparser A), alike inp g g.
Proof. intros A inp g off. reflexivity. Qed.
Lemma al_one : forall A B inp (k : parser N A -> parser N B) g g', alike inp g g' -> alike inp (w_one k g) (w_one k g').
Proof. intros A B inp k g g' H off. unfold w_one. now rewrite (H off). Qed.
Lemma al_two : forall A B C inp (k : parser N A -> parser N B -> parser N C) g g' h h', alike inp g g' -> alike inp h h' -> alike inp (w_two k g h) (w_two k g' h').
Proof. intros A B C inp k g g' h h' H1 H2 off. unfold w_two. rewrite (H1 off). destruct (g' inp off) as [[v n|e c| |] w]; try reflexivity. now rewrite (H2 (off + n)). Qed.
Lemma al_rep : forall A inp (g g' : wparser A) r, alike inp g g' -> alike inp (w_rep g r (None : option (wparser unit))) (w_rep g' r (None : option (wparser unit))).
Proof.
  intros A inp g g' r H off. assert (L : forall fuel rend cur items all w, w_loop fuel g (None : option (wparser unit)) rend inp cur items all w = w_loop fuel g' (None : option (wparser unit)) rend inp cur items all w).
  { induction fuel as [|fuel IH]; intros rend cur items all w; cbn [w_loop]; [reflexivity|]. destruct (rep_stop rend (length items)); [reflexivity|]. rewrite (H cur). destruct (g' inp cur) as [[v n|e c| |] w1]; try reflexivity. apply IH. }
  unfold w_rep. rewrite (H off). destruct (g' inp off) as [[v n|e c| |] w]; try reflexivity. now rewrite L.
Qed.

(** ** An expression that is read leaves a line of the operator *)
Section Loud.
Variable P : list N -> Log.line -> Prop.
Definition loud {A} (g : wparser A) : Prop := forall inp off v n w, g inp off = (Success v n, w) -> Exists (P inp) w.
Lemma loud_name : forall A (g : wparser A) s, loud g -> loud (w_name g s).
Proof.
  intros A g s H inp off v n w E. unfold w_name, w_one in E. specialize (H inp off). destruct (g inp off) as [o w']. injection E as E <-. unfold p_name in E. destruct o as [x m|e c| |]; [now apply (H x m)|..]; cbn in E; repeat match type of E with context [match ?y with _ => _ end] => destruct y end; discriminate.
Qed.
Lemma loud_chain : forall g (h : wparser (expr -> expr -> expr)), loud g -> loud (w_chain_left1 g h).
Proof.
  intros g h H inp off v n w E. unfold w_chain_left1 in E. specialize (H inp off). destruct (g inp off) as [[x m|e c| |] w1]; try discriminate. destruct (w_rest _ g h x inp (off + m)) as [r w2]. apply (f_equal snd) in E. cbn [snd] in E. rewrite <- E.
  specialize (H x m w1 eq_refl). apply Exists_app. now left.
Qed.
(** A parser that leaves a line whenever it returns. *)
Definition vocal {A} (g : wparser A) : Prop := forall inp off, match fst (g inp off) with Panic | Diverge => True | _ => Exists (P inp) (snd (g inp off)) end.
Lemma loud_rest : forall A (g : wparser A) h, vocal h -> forall fuel x, loud (w_rest fuel g h x).
Proof.
  intros A g h H fuel x inp off v n w E. destruct fuel as [|fuel]; cbn [w_rest] in E; [discriminate|]. specialize (H inp off).
  destruct (h inp off) as [[f k|e c| |] w1]; cbn [fst snd] in H; try discriminate; [|apply (f_equal snd) in E; cbn [snd] in E; now subst w1].
  destruct (g inp (off + k)) as [[y m|e c| |] w2]; try discriminate; [destruct (w_rest fuel g h (f x y) inp (off + k + m)) as [r w3]|]; apply (f_equal snd) in E; cbn [snd] in E; subst w; apply Exists_app; now left.
Qed.
Lemma loud_chain_op : forall A (g : wparser A) h, vocal h -> loud (w_chain_left1 g h).
Proof.
  intros A g h H inp off v n w E. unfold w_chain_left1 in E. destruct (g inp off) as [[x m|e c| |] w1]; try discriminate.
  pose proof (@loud_rest A g h H (chain_fuel inp (off + m)) x inp (off + m)) as L. destruct (w_rest _ g h x inp (off + m)) as [[y k|e c| |] w2]; [|destruct (m =? 0); discriminate|discriminate|discriminate].
  specialize (L y k w2 eq_refl). apply (f_equal snd) in E. cbn [snd] in E. subst w. apply Exists_app. now right.
Qed.
Lemma vocal_log : forall A (p : parser N A) s lv f, (forall inp off, P inp (Line lv (s ++ bs " = " ++ f (p inp off)))) -> vocal (w_log_map (w_leaf p) s lv f).
Proof. intros A p s lv f H inp off. specialize (H inp off). unfold w_log_map, w_leaf. destruct (p inp off) as [v n|e c| |]; cbn [fst snd app]; try exact I; now constructor. Qed.
Lemma vocal_map : forall A B (g : wparser A) (f : A -> option B), vocal g -> vocal (w_map_panic g f).
Proof.
  intros A B g f H inp off. specialize (H inp off). unfold w_map_panic, w_one, p_map_panic. destruct (g inp off) as [[v n|e c| |] w]; cbn [fst snd] in *; try exact H. now destruct (f v).
Qed.
End Loud.
Section Slow.
Variable nd : N -> bool.
Hypothesis nd_ascii : forall x, (x < 128)%N -> (nd x = true <-> digit x).
Variable show : shown.
Variable show_params : outcome N (name * expr * expr) -> list N.
Notation opl := (fun inp l => exists off, l = op_line show inp off).
Lemma loud_multitive : forall g, loud opl (wt_multitive show g).
Proof. intros g. apply loud_name, loud_chain_op, vocal_map, vocal_log. intros inp off. now exists off. Qed.
Lemma loud_expression : loud opl (wt_expression nd show).
Proof.
  assert (H : forall n, loud opl (wt_expression_fuel nd show (S n))) by (intros n; apply loud_name, loud_name, loud_chain, loud_name, loud_chain, loud_name, loud_chain, loud_multitive).
  intros inp off. exact (H (length inp) inp off).
Qed.
Lemma lo_expression : forall s rest v, acc (expression nd) s rest v -> long (wt_expression nd show) (s ++ rest) 1.
Proof.
  intros s rest v H pre. specialize (H pre). rewrite <- (e_expression nd show _ _) in H. pose proof (loud_expression (pre ++ s ++ rest) (length pre)) as L. destruct (wt_expression nd show (pre ++ s ++ rest) (length pre)) as [o w].
  cbn [fst snd] in *. subst o. specialize (L v (length s) w eq_refl). destruct w; [inversion L|cbn [length]; lia].
Qed.
Lemma lo_spaced : forall A (g : wparser A) l c, no_ws l -> long g l c -> long (wt_spaced g) l c.
Proof. intros A g l c Hl H. unfold wt_spaced. apply lo_two1. change l with ([] ++ l). eapply lo_prefix; [apply a_tspace; [apply ws_nil|exact Hl]|exact H]. Qed.
Notation lf := (line_fuel nd).
Notation wl := (wt_line_fuel nd show show_params).
Notation head := (p_skip_right (p_skip_left (p_skip_left (p_skip_right (p_tag (bs "if")) t_space) lparen) (expression nd)) rparen).
Notation whead := (w_skip_right (w_skip_left (w_skip_left (w_leaf (p_skip_right (p_tag (bs "if")) t_space)) (w_leaf lparen)) (wt_expression nd show)) (w_leaf rparen)).
Lemma e_head : werases whead head.
Proof. apply we_skip_right, we_leaf. apply we_skip_left, e_expression. apply we_skip_left; apply we_leaf. Qed.
Lemma lo_head : forall rest, no_ws rest -> long whead (bs "if(a)" ++ rest) 1.
Proof.
  intros rest H. apply lo_two1. change (bs "if(a)" ++ rest) with ((bs "if" ++ bs "(") ++ bs "a" ++ bs ")" ++ rest).
  assert (P : acc (p_skip_left (p_skip_right (p_tag (bs "if")) t_space) lparen) (bs "if" ++ bs "(") (bs "a" ++ bs ")" ++ rest) (bs "(")).
  { eapply a_skip_left; [|apply a_ttag0; [cbn; lia|apply lx_self|cbn; lia]]. change (bs "if") with (bs "if" ++ []) at 2. eapply a_skip_right; [apply a_tag|apply a_tspace; [apply ws_nil|cbn; lia]]. }
  change 1 with (0 + 1). eapply lo_two; [apply we_skip_left; apply we_leaf|exact P|apply lo_zero|].
  destruct (@a_expr0 nd nd_ascii (ESymbol (bs "a")) (bs "a") (bs ")" ++ rest)) as (s1 & s2 & E & W & C); [apply lev_a|apply (@fol_tok 41%N [] (bs "a") (bs ")") rest); [cbn; tauto|apply lx_self]|].
  change (bs "a" ++ bs ")" ++ rest) with (bs "a" ++ (bs ")" ++ rest)). rewrite E, <- app_assoc. exact (lo_expression C).
Qed.
(** An if whose else line fails: the line behind else is read once more. *)
Lemma lo_if : forall n d s e c1 c2, no_ws s -> s <> [] -> acc (lf n) s (elses d) e -> long (wl n) (s ++ elses d) c1 -> long (wl n) (ladder d) c2 ->
  long (wl (S n)) ((bs "if(a)" ++ s) ++ elses d) (1 + c1 + c2).
Proof.
  intros n d s e c1 c2 Hw Hs H1 C1 C2. cbn [wt_line_fuel]. unfold wt_line_of. apply lo_one, lo_spaced; [cbn; lia|]. do 4 apply lo_or1.
  pose proof (e_expression nd show) as X. pose proof (e_line_fuel nd show show_params n) as L.
  eapply lo_or with (p := p_or (println nd) (p_lazy (fun _ => while_p nd (lf n)))).
  - apply we_or; [unfold wt_println, println|unfold wt_while, while_p, p_lazy]; apply we_name, we_attempt, e_spaced;
      repeat first [assumption|apply we_leaf|apply we_name|apply we_attempt|apply we_map|apply we_and|apply we_skip_left|apply we_skip_right|apply we_surround|apply we_opt].
  - apply r_or; [apply r_hd_println|apply r_lazy, r_hd_while]; cbn; lia.
  - unfold wt_if. apply lo_one, lo_one, lo_spaced; [cbn; lia|]. apply lo_one.
    assert (Ns : forall r, no_ws (s ++ r)) by (intros r; destruct s; [congruence|exact Hw]).
    eapply lo_two with (p := p_and head (lf n)); [apply we_and; [apply e_head|exact L]|eapply a_and; [apply a_head; [exact nd_ascii|apply Ns]|exact H1]| |].
    + rewrite <- app_assoc. eapply lo_two; [apply e_head|apply a_head; [exact nd_ascii|apply Ns]|apply lo_head; apply Ns|exact C1].
    + apply lo_or1, lo_one, lo_one. unfold elses. eapply lo_prefix; [|exact C2]. apply a_ttag0; [cbn; lia|apply lx_self|]. apply brace_ws, brace_ladder.
Qed.
Lemma lo_block : forall n d c, 2 < n -> rej (lf n) (ladder d) false -> long (wl n) (ladder d) c -> long (wl (S n)) (ladder d) c -> long (wt_block (wl (S (S n)))) (ladder (S d)) (2 + c + c).
Proof.
  intros n d c L R C1 C2. unfold wt_block. apply lo_one, lo_spaced; [cbn; lia|]. apply lo_one. cbn [ladder].
  change (bs "{if(a)if(a)b;else" ++ ladder d) with (bs "{" ++ (bs "if(a)" ++ bs "if(a)b;") ++ elses d).
  eapply lo_prefix; [apply a_ttag0; [cbn; lia|apply lx_self|cbn; lia]|]. apply lo_two1, lo_rep. replace (2 + c + c) with (1 + (1 + 0 + c) + c) by lia.
  eapply lo_if; [cbn; lia|discriminate|now apply a_if1| |exact C2]. change (bs "if(a)b;" ++ elses d) with ((bs "if(a)" ++ bs "b;") ++ elses d).
  eapply lo_if; [cbn; lia|discriminate|now apply a_b|apply lo_zero|exact C1].
Qed.
Fixpoint written (d : nat) : nat := match d with 0 => 0 | S d' => 2 + written d' + written d' end.
Lemma written_pow : forall d, written d + 2 = 2 ^ S d.
Proof. induction d as [|d IH]; [reflexivity|]. cbn [written]. cbn [Nat.pow] in *. lia. Qed.
Lemma e_six : forall n, werases (w_or (w_or (w_or (w_or (w_or (wt_println nd show) (wt_while nd show (wl n))) (wt_if nd show (wl n))) (wt_for nd show show_params (wl n))) (wt_assignment nd show)) (wt_expression_line nd show))
  (p_or (p_or (p_or (p_or (p_or (println nd) (p_lazy (fun _ => while_p nd (lf n)))) (p_lazy (fun _ => if_p nd (lf n)))) (p_lazy (fun _ => for_p nd (lf n)))) (assignment nd)) (expression_line nd)).
Proof.
  intros n. pose proof (e_expression nd show) as X. pose proof (e_ident show) as I. pose proof (e_line_fuel nd show show_params n) as L.
  assert (F : werases (w_log_map (wt_for_params nd show) (bs "params") LDebug show_params) (for_params nd)) by exact (we_log_map _ _ _ (fun _ => tt) (e_params nd show)).
  repeat apply we_or; [unfold wt_println, println|unfold wt_while, while_p, p_lazy|unfold wt_if, if_p, p_lazy|unfold wt_for, for_p, p_lazy|unfold wt_assignment, assignment|unfold wt_expression_line, expression_line];
    try (apply we_name, we_attempt, e_spaced); repeat first [assumption|apply we_leaf|apply we_name|apply we_attempt|apply we_map|apply we_and|apply we_skip_left|apply we_skip_right|apply we_surround|apply we_opt].
Qed.
Lemma lo_ladder : forall d n, 3 * d + 2 < n -> long (wl n) (ladder d) (written d).
Proof.
  induction d as [|d IH]; intros n L; [apply lo_zero|]. destruct n as [|[|[|n]]]; try lia. cbn [wt_line_fuel]. unfold wt_line_of at 1. apply lo_one, lo_spaced; [cbn; lia|].
  eapply lo_or; [apply (e_six (S (S n)))|apply (@r_line6 nd nd_ascii (S (S n)) 123%N); [cbn; lia|unfold letter_; cbn; lia|cbn; lia]|].
  apply lo_block; [lia|apply r_ladder; [exact nd_ascii|lia]|apply IH; lia|apply IH; lia].
Qed.
Lemma lines_long : forall d, written d <= length (snd (wt_lines nd show show_params (ladder d) 0)).
Proof.
  intros d. assert (C : long (wt_lines nd show show_params) (ladder d) (written d)).
  { unfold wt_lines. apply lo_two1, lo_two1, lo_rep. destruct d as [|d]; [apply lo_zero|]. intros pre. unfold wt_line. apply lo_ladder. rewrite app_length, ladder_length. lia. }
  exact (C []).
Qed.
Lemma program_long : forall d, written d <= length (snd (wt_program nd show show_params (slow d) 0)).
Proof.
  intros d. pose proof (e_expression nd show) as X. pose proof (e_ident show) as I. assert (C : long (wt_program nd show show_params) (slow d) (written d)); [|exact (C [])].
  unfold wt_program. change (slow d) with ([] ++ slow d). eapply lo_prefix; [apply a_tspace; [apply ws_nil|cbn; lia]|]. apply lo_one, lo_rep. unfold wt_top_level_definition. apply lo_one.
  eapply lo_or with (p := global_variable_definition nd).
  - unfold wt_global_variable_definition, global_variable_definition. apply we_name, e_spaced, we_map, we_skip_right; [|apply we_leaf]. apply we_and; [|exact X]. repeat first [assumption|apply we_leaf|apply we_skip_left|apply we_skip_right].
  - apply r_name, r_spaced0; [cbn; lia|]. apply r_map, r_skip_right1, r_and1, r_skip_right1, r_skip_left1. apply (@r_ttag _ _ []); [apply ws_nil|cbn; lia|cbn; lia].
  - unfold wt_function_definition. apply lo_one, lo_spaced; [cbn; lia|]. apply lo_one. unfold slow. change (written d) with (0 + written d). eapply lo_two; [|apply a_fn, brace_ws, brace_ladder; exact nd_ascii|apply lo_zero|].
    1: { repeat first [assumption|apply we_leaf|apply we_and|apply we_skip_left|apply we_skip_right|apply we_surround|apply we_many0_sep]. } destruct d as [|d]; [apply lo_zero|].
    intros pre. set (inp := pre ++ ladder (S d)).
    assert (E : alike inp (wt_block (wt_line nd show show_params)) (wt_block (wl (S (length inp))))).
    { unfold wt_block, wt_spaced, w_name, w_map, w_surround, w_skip_left, w_skip_right, w_many0. repeat first [apply al_one|apply al_two|apply al_rep|apply al_refl]. }
    rewrite (E (length pre)). subst inp. rewrite app_length, ladder_length. replace (S (length pre + 17 * S d)) with (S (S (length pre + 16 + 17 * d))) by lia.
    apply lo_block; [lia|apply r_ladder; [exact nd_ascii|lia]|apply lo_ladder; lia|apply lo_ladder; lia].
Qed.
End Slow.

(** ** C153 *)
(** An expression that is read leaves a line of the operator, which is tried behind the first operand. *)
Theorem C153_every_expression : forall nd show text v n w, wt_expression nd show text 0 = (Success v n, w) ->
  exists off, In (Line LDebug (bs "operator" ++ bs " = " ++ on_op show (p_or (t_sym (chr "*")) (t_sym (chr "/")) text off))) w.
Proof. intros nd show text v n w E. pose proof (@loud_expression nd show text 0 v n w E) as L. apply Exists_exists in L as (l & Hl & off & ->). now exists off. Qed.
(** The lines double with every 17 characters. *)
Theorem C153_doubling : forall nd show show_params d, ascii_class nd ->
  length (slow (S d)) = 23 + 17 * d /\ 2 ^ S d <= length (snd (wt_program nd show show_params (slow (S d)) 0)) /\
  length (ladder (S d)) = 17 + 17 * d /\ 2 ^ S d <= length (snd (wt_lines nd show show_params (ladder (S d)) 0)).
Proof.
  intros nd show show_params d H. pose proof (written_pow (S d)) as W. pose proof (@program_long nd H show show_params (S d)) as P. pose proof (@lines_long nd H show show_params (S d)) as L.
  assert (G : 2 ^ S d <= written (S d)) by (cbn [Nat.pow] in *; pose proof (Nat.pow_nonzero 2 d ltac:(lia)); lia). rewrite slow_length, ladder_length. repeat split; lia.
Qed.
(** No polynomial in the length of the text bounds the length of the log. *)
Theorem C153_polynomial_refuted : forall nd show show_params c e, ascii_class nd ->
  exists text, c * length text ^ e < length (snd (wt_program nd show show_params text 0)).
Proof.
  intros nd show show_params c e H. assert (P : forall d, 2 ^ S d <= length (snd (wt_program nd show show_params (slow (S d)) 0))) by (intros d; now apply C153_doubling).
  destruct (outgrows c e) as [d D]. destruct d as [|d].
  - exists (slow 1). specialize (P 0). assert (c = 0) as -> by (pose proof (Nat.pow_nonzero 6 e ltac:(lia)); cbn [Nat.mul Nat.add Nat.pow] in D; nia). cbn [Nat.pow] in P. lia.
  - exists (slow (S d)). specialize (P d). rewrite slow_length. lia.
Qed.
(** The texts have 6, 23, 40, 57 and 74 characters. *)
Example C153_lengths : map (fun d => length (snd (wt_program nd0 show0 show1 (slow d) 0))) [0; 1; 2; 3; 4] = [2; 34; 98; 226; 482] /\
  map (fun d => length (slow d)) [0; 1; 2; 3; 4] = [6; 23; 40; 57; 74] /\ ascii_class nd0.
Proof. split; [vm_compute; reflexivity|]. split; [reflexivity|exact nd0_ok]. Qed.
Example C153_one_line : exists n, wt_expression nd0 show0 (bs "x") 0 = (Success (ESymbol (bs "x")) n, repeat (Line LDebug (bs "regex: input = x")) 4 ++ [Line LDebug (bs "operator = none")]).
Proof. eexists. vm_compute. reflexivity. Qed.
Print Assumptions C153_every_expression.
Print Assumptions C153_doubling.
Print Assumptions C153_polynomial_refuted.
