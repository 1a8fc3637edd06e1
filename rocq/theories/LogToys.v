(** What the toys parsers write to the log: the debug calls of toys/src/parsers.rs 114 and 175, and the lines that regex writes
    (elements_parsers_impl.rs 92).  The caches are left out: within one parse they find
    no answer (C149), so that every run is a run of the parser itself. *)
From Verif Require Import Base Core Comb Closure Text Json Calc Toys ToysParse Log.
From Coq Require Import Permutation.
Set Implicit Arguments.
Local Open Scope string_scope.
Local Open Scope nat_scope.
Local Open Scope list_scope.

(** ** More combinators *)
(** logging_parsers_impl.rs 28-50, skip_parser_impl.rs (surround), repeat_parsers_impl.rs 18-57 *)
Definition w_name {A} (g : wparser A) (n : string) : wparser A := w_one (fun p => p_name p n) g.
Definition w_surround {A B C} (g : wparser A) (h : wparser B) (k : wparser C) : wparser B := w_skip_left g (w_skip_right h k).
Definition w_many0_sep {A B} (g : wparser A) (h : wparser B) : wparser (list A) := w_rep g (rg_from 0) (Some h).
(** chain_parsers_impl.rs: rest_left1 and chain_left1 as in Comb.v *)
Fixpoint w_rest {A} (fuel : nat) (g : wparser A) (h : wparser (A -> A -> A)) (x : A) : wparser A := fun inp off =>
  match fuel with
  | 0 => (Diverge, [])
  | S fuel' =>
      let '(o, w) := h inp off in
      match o with
      | Success f n1 =>
          let '(o2, w2) := g inp (off + n1) in
          match o2 with
          | Success y n2 =>
              let '(r, w3) := w_rest fuel' g h (f x y) inp (off + n1 + n2) in
              (p_or (fun _ _ => advance_success n1 (add_commit (negb (n1 =? 0)) (advance_success n2 r))) (p_successful x) inp off, w ++ w2 ++ w3)
          | Failure e c => (p_or (fun _ _ => advance_success n1 (add_commit (negb (n1 =? 0)) (Failure e c))) (p_successful x) inp off, w ++ w2)
          | Panic => (Panic, w ++ w2)
          | Diverge => (Diverge, w ++ w2)
          end
      | Failure e c => (p_or (fun _ _ => Failure e c) (p_successful x) inp off, w)
      | Panic => (Panic, w)
      | Diverge => (Diverge, w)
      end
  end.
Definition w_chain_left1 {A} (g : wparser A) (h : wparser (A -> A -> A)) : wparser A := fun inp off =>
  let '(o, w) := g inp off in
  match o with
  | Success v n => let '(r, w2) := w_rest (chain_fuel inp (off + n)) g h v inp (off + n) in (advance_success n (add_commit (negb (n =? 0)) r), w ++ w2)
  | Failure e c => (Failure e c, w)
  | Panic => (Panic, w)
  | Diverge => (Diverge, w)
  end.

(** elements_parsers_impl.rs 83-107: line 92 writes what is left of the input before it is matched; [on] is its Debug text. *)
Definition w_regex (on : list N -> list N) (find : list N -> option (list N)) : wparser (list N) := fun inp off =>
  match ps_input inp off with
  | None => (Panic, [])
  | Some l => (p_regex find inp off, [Line LDebug (bs "regex: input = " ++ on l)])
  end.

(** ** toys/src/parsers.rs *)
(** The texts that Debug ({:?}) makes of a result of mul() | div() and of characters. *)
Record shown := Shown { on_op : outcome N N -> list N; on_input : list N -> list N }.
Section Toys.
Variable nd : N -> bool.
Variable show : shown.
(** The Debug text of a result of params. *)
Variable show_params : outcome N (name * expr * expr) -> list N.
(** toys/src/parsers.rs 8-63: space() * p - space() *)
Definition wt_spaced {A} (g : wparser A) : wparser A := w_skip_right (w_skip_left (w_leaf t_space) g) (w_leaf t_space).
(** toys/src/parsers.rs 8-10 *)
Definition wt_ident : wparser name := wt_spaced (w_regex (on_input show) find_ident).
(** toys/src/parsers.rs 166-171, 264-271, 273-305, 307-309 *)
Definition wt_integer : wparser expr :=
  w_name (wt_spaced (w_map (w_one (fun p => p_map_res p parse_i64) (w_regex (on_input show) (find_integer nd))) EInt)) "integer".
Definition wt_bool_literal : wparser expr := w_leaf bool_literal.
Definition wt_string_literal : wparser expr := w_leaf string_literal.
Definition wt_identifier : wparser expr := w_name (w_map wt_ident ESymbol) "identifier".
(** toys/src/parsers.rs 173-182; the debug of line 175 *)
Definition wt_multitive (g : wparser expr) : wparser expr :=
  w_name (w_chain_left1 g (w_map_panic (w_log_map (w_leaf (p_or (t_sym (chr "*")) (t_sym (chr "/")))) (bs "operator") LDebug (on_op show))
    (fun c => if (c =? chr "*")%N then Some (EBin OMul) else if (c =? chr "/")%N then Some (EBin ODiv) else None))) "multitive".
(** toys/src/parsers.rs 184-192 *)
Definition wt_moditive (g : wparser expr) : wparser expr :=
  w_name (w_chain_left1 (wt_multitive g) (w_leaf (p_map_panic (t_sym (chr "%"))
    (fun c => if (c =? chr "%")%N then Some (EBin OMod) else None)))) "moditive".
(** toys/src/parsers.rs 194-203 *)
Definition wt_additive (g : wparser expr) : wparser expr :=
  w_name (w_chain_left1 (wt_moditive g) (w_leaf (p_map_panic (p_or (t_sym (chr "+")) (t_sym (chr "-")))
    (fun c => if (c =? chr "+")%N then Some (EBin OAdd) else if (c =? chr "-")%N then Some (EBin OSub) else None)))) "additive".
(** toys/src/parsers.rs 205-241 *)
Definition wt_comparative (g : wparser expr) : wparser expr := w_name (w_chain_left1 (wt_additive g) (w_leaf comp_op)) "comparative".
(** toys/src/parsers.rs 156-158 *)
Definition wt_expression_of (g : wparser expr) : wparser expr := w_name (wt_comparative g) "expression".
Section Primary.
Variable expression : wparser expr.
(** toys/src/parsers.rs 243-247 *)
Definition wt_function_call : wparser expr :=
  w_name (w_attempt (wt_spaced
    (w_map (w_and wt_ident (w_surround (w_leaf lparen) (w_many0_sep expression (w_leaf comma)) (w_leaf rparen)))
      (fun '(f, args) => ECall f args)))) "function_call".
(** toys/src/parsers.rs 249-254 *)
Definition wt_param : wparser (name * expr) := w_map (w_and (w_skip_right wt_ident (w_leaf (p_elm_ref (chr "=")))) expression) (fun v => v).
Definition wt_labelled_call : wparser expr :=
  w_name (w_attempt (wt_spaced
    (w_map (w_and wt_ident (w_surround (w_leaf lbracket) (w_many1_sep wt_param (w_leaf comma)) (w_leaf rbracket)))
      (fun '(f, args) => ELabelled f args)))) "labelled_call".
(** toys/src/parsers.rs 256-262 *)
Definition wt_array_literal : wparser expr :=
  w_name (wt_spaced (w_map (w_surround (w_leaf lbracket) (w_many0_sep expression (w_leaf comma)) (w_leaf rbracket)) EArray)) "array_literal".
(** toys/src/parsers.rs 312 *)
Definition wt_paren_expr : wparser expr := w_map (w_skip_right (w_skip_left (w_leaf lparen) expression) (w_leaf rparen)) EParen.
(** toys/src/parsers.rs 311-324 *)
Definition wt_primary_of : wparser expr :=
  w_name
    (w_or (w_or (w_or (w_or (w_or (w_or (w_or wt_paren_expr wt_integer) wt_string_literal) wt_function_call) wt_labelled_call) wt_array_literal)
      wt_bool_literal) wt_identifier) "primary".
End Primary.
(** The recursion through lazy(expression) and lazy(line), as in ToysParse.v. *)
Fixpoint wt_expression_fuel (fuel : nat) : wparser expr :=
  match fuel with
  | 0 => w_leaf p_diverge
  | S fuel' => wt_expression_of (wt_primary_of (wt_expression_fuel fuel'))
  end.
Definition wt_expression : wparser expr := fun inp off => wt_expression_fuel (S (length inp)) inp off.
Section Line.
Variable line : wparser expr.
(** toys/src/parsers.rs 160-164 *)
Definition wt_println : wparser expr :=
  w_name (w_attempt (wt_spaced
    (w_map (w_skip_right (w_skip_left (w_leaf (p_tag (bs "println"))) (w_surround (w_leaf lparen) wt_expression (w_leaf rparen))) (w_leaf semi_colon))
      EPrintln))) "println".
(** toys/src/parsers.rs 102-107 *)
Definition wt_while : wparser expr :=
  w_name (w_attempt (wt_spaced
    (w_map (w_and (w_skip_left (w_leaf (t_tag (bs "while"))) (w_surround (w_leaf lparen) wt_expression (w_leaf rparen))) line)
      (fun '(c, b) => EWhile c b)))) "while".
(** toys/src/parsers.rs 109-131; the debug of line 114 *)
Definition wt_for_params : wparser (name * expr * expr) :=
  w_skip_right (w_skip_right
    (w_and (w_skip_right
      (w_and (w_skip_right (w_skip_left (w_leaf lparen) wt_ident) (w_leaf (p_and (p_and t_space (p_tag (bs "in"))) t_space))) wt_expression)
      (w_leaf (t_tag (bs "to")))) wt_expression)
    (w_leaf t_space)) (w_leaf rparen).
Definition wt_for : wparser expr :=
  w_name (w_attempt (wt_spaced
    (w_map (w_and (w_skip_left (w_leaf (p_skip_right (p_tag (bs "for")) t_space)) (w_log_map wt_for_params (bs "params") LDebug show_params)) line)
      (fun '(x, from, to_, body) => for_expr x from to_ body)))) "for".
(** toys/src/parsers.rs 133-139 *)
Definition wt_if : wparser expr :=
  w_name (w_attempt (wt_spaced
    (w_map
      (w_and
        (w_and (w_skip_right (w_skip_left (w_skip_left (w_leaf (p_skip_right (p_tag (bs "if")) t_space)) (w_leaf lparen)) wt_expression) (w_leaf rparen)) line)
        (w_opt (w_skip_left (w_leaf (t_tag (bs "else"))) line)))
      (fun '(c, t, e) => EIf c t e)))) "if".
(** toys/src/parsers.rs 141-144 *)
Definition wt_block : wparser expr :=
  w_name (wt_spaced (w_map (w_surround (w_leaf lbrace) (w_many0 line) (w_leaf rbrace)) EBlock)) "block".
(** toys/src/parsers.rs 146-150 *)
Definition wt_assignment : wparser expr :=
  w_name (w_attempt (wt_spaced
    (w_map (w_skip_right (w_and (w_skip_right wt_ident (w_leaf (t_tag (bs "=")))) wt_expression) (w_leaf semi_colon)) (fun '(x, e) => EAssign x e)))) "assignment".
(** toys/src/parsers.rs 152-154 *)
Definition wt_expression_line : wparser expr := w_name (w_attempt (w_skip_right wt_expression (w_leaf semi_colon))) "expression_line".
(** toys/src/parsers.rs 97-100 *)
Definition wt_line_of : wparser expr :=
  w_name (wt_spaced
    (w_or (w_or (w_or (w_or (w_or (w_or wt_println wt_while) wt_if) wt_for) wt_assignment) wt_expression_line) wt_block)) "line".
End Line.
(** toys/src/parsers.rs 97-100, 105, 114, 142 *)
Fixpoint wt_line_fuel (fuel : nat) : wparser expr :=
  match fuel with
  | 0 => w_leaf p_diverge
  | S fuel' => wt_line_of (wt_line_fuel fuel')
  end.
Definition wt_line : wparser expr := fun inp off => wt_line_fuel (S (length inp)) inp off.
(** toys/src/parsers.rs 93-95 *)
Definition wt_lines : wparser (list expr) := w_skip_right (w_skip_right (w_many1 wt_line) (w_leaf t_space)) (w_leaf p_end).
(** toys/src/parsers.rs 76-82 *)
Definition wt_function_definition : wparser expr :=
  w_name (wt_spaced
    (w_map
      (w_and (w_and (w_skip_right (w_skip_left (w_leaf (p_skip_left (p_skip_left t_space (p_tag (bs "fn"))) t_space)) wt_ident) (w_leaf t_space))
        (w_surround (w_leaf lparen) (w_many0_sep wt_ident (w_leaf comma)) (w_leaf rparen))) (wt_block wt_line))
      (fun '(f, args, body) => EFun f args body))) "function definition".
(** toys/src/parsers.rs 84-91 *)
Definition wt_global_variable_definition : wparser expr :=
  w_name (wt_spaced
    (w_map (w_skip_right (w_and (w_skip_right (w_skip_left (w_leaf (t_tag (bs "global"))) wt_ident) (w_leaf (t_tag (bs "=")))) wt_expression) (w_leaf semi_colon))
      (fun '(x, e) => EGlobal x e))) "global variable definition".
(** toys/src/parsers.rs 72-74, 68-70 *)
Definition wt_top_level_definition : wparser expr := w_name (w_or wt_global_variable_definition wt_function_definition) "top level definition".
Definition wt_program : wparser expr := w_skip_left (w_leaf t_space) (w_map (w_many0 wt_top_level_definition) EProgram).
End Toys.

(** ** The outcomes are those of ToysParse.v *)
Lemma we_name : forall A (g : wparser A) p n, werases g p -> werases (w_name g n) (p_name p n).
Proof. intros A g p n H. now apply (@we_one A A (fun p => p_name p n)). Qed.
Lemma we_regex : forall on find, werases (w_regex on find) (p_regex find).
Proof. intros on find inp off. unfold w_regex, p_regex. now destruct (ps_input inp off). Qed.
Lemma we_map_res : forall A B E (g : wparser A) p (f : A -> B + E), werases g p -> werases (w_one (fun p => p_map_res p f) g) (p_map_res p f).
Proof. intros A B E g p f H. now apply (@we_one A B (fun p => p_map_res p f)). Qed.
Lemma we_surround : forall A B C (g : wparser A) (h : wparser B) (k : wparser C) p q r, werases g p -> werases h q -> werases k r -> werases (w_surround g h k) (p_surround p q r).
Proof. intros. apply we_skip_left; [assumption|now apply we_skip_right]. Qed.
Lemma we_many0_sep : forall A B (g : wparser A) p (h : wparser B) q, werases g p -> werases h q -> werases (w_many0_sep g h) (p_many0_sep p q).
Proof. intros A B g p h q H1 H2. now apply we_rep. Qed.
Lemma we_many1 : forall A (g : wparser A) p, werases g p -> werases (w_many1 g) (p_many1 p).
Proof. intros A g p H. now apply we_rep. Qed.
Lemma we_rest : forall A (g : wparser A) h p op, werases g p -> werases h op -> forall fuel x inp off, fst (w_rest fuel g h x inp off) = rest_left1_fuel fuel p op x inp off.
Proof.
  intros A g h p op H1 H2. induction fuel as [|fuel IH]; intros x inp off; cbn [w_rest rest_left1_fuel]; [reflexivity|]. unfold p_or. rewrite <- (H2 inp off).
  destruct (h inp off) as [[f n|e c| |] w]; cbn [fst]; try reflexivity. rewrite <- (H1 inp (off + n)). destruct (g inp (off + n)) as [[y m|e c| |] w2]; cbn [fst]; try reflexivity.
  specialize (IH (f x y) inp (off + n + m)). destruct (w_rest fuel g h (f x y) inp (off + n + m)) as [r w3]. cbn [fst] in *. now rewrite IH.
Qed.
Lemma we_chain : forall A (g : wparser A) h p op, werases g p -> werases h op -> werases (w_chain_left1 g h) (p_chain_left1 p op).
Proof.
  intros A g h p op H1 H2 inp off. unfold w_chain_left1, p_chain_left1, p_flat_map, p_rest_left1. rewrite <- (H1 inp off). destruct (g inp off) as [[v n|e c| |] w]; cbn [fst]; try reflexivity.
  pose proof (we_rest H1 H2 (chain_fuel inp (off + n)) v inp (off + n)) as E. destruct (w_rest _ g h v inp (off + n)) as [r w2]. cbn [fst] in *. now rewrite E.
Qed.

(** ** Every line tells something true *)
Definition tells {A} (P : list N -> line -> Prop) (g : wparser A) : Prop := forall inp off, Forall (P inp) (snd (g inp off)).
Section Tells.
Variable P : list N -> line -> Prop.
Notation tells := (tells P).
Lemma t_leaf : forall A (p : parser N A), tells (w_leaf p).
Proof. intros A p inp off. constructor. Qed.
Lemma t_one : forall A B (k : parser N A -> parser N B) g, tells g -> tells (w_one k g).
Proof. intros A B k g H inp off. unfold w_one. specialize (H inp off). now destruct (g inp off). Qed.
Lemma t_two : forall A B C (k : parser N A -> parser N B -> parser N C) g h, tells g -> tells h -> tells (w_two k g h).
Proof.
  intros A B C k g h H1 H2 inp off. unfold w_two. specialize (H1 inp off). destruct (g inp off) as [[x n|e c| |] w]; cbn [snd] in *; try assumption.
  specialize (H2 inp (off + n)). destruct (h inp (off + n)) as [o2 w2]. cbn [snd] in *. now apply Forall_app.
Qed.
Lemma t_or : forall A (g h : wparser A), tells g -> tells h -> tells (w_or g h).
Proof.
  intros A g h H1 H2 inp off. unfold w_or. specialize (H1 inp off). destruct (g inp off) as [[x n|e [|]| |] w]; cbn [snd] in *; try assumption.
  specialize (H2 inp off). destruct (h inp off) as [o2 w2]. cbn [snd] in *. now apply Forall_app.
Qed.
Lemma t_opt : forall A (g : wparser A), tells g -> tells (w_opt g).
Proof. intros A g H. apply t_or; [now apply t_one, t_one|apply t_leaf]. Qed.
Lemma t_loop : forall A B (g : wparser A) (s : option (wparser B)), tells g -> (forall h, s = Some h -> tells h) -> forall fuel rend inp cur items all w,
  Forall (P inp) w -> Forall (P inp) (snd (w_loop fuel g s rend inp cur items all w)).
Proof.
  intros A B g s H1 H2. induction fuel as [|fuel IH]; intros rend inp cur items all w Hw; cbn [w_loop]; [exact Hw|].
  destruct (rep_stop rend (length items)); [exact Hw|]. destruct s as [h|].
  - specialize (H2 h eq_refl inp cur). destruct (h inp cur) as [[x n|e c| |] w1]; cbn [snd] in *; try (apply Forall_app; now split).
    specialize (H1 inp (cur + n)). destruct (g inp (cur + n)) as [[y k|e c| |] w2]; cbn [snd] in *; try (apply Forall_app; split; [apply Forall_app; now split|assumption]).
    apply IH. apply Forall_app; split; [apply Forall_app; now split|assumption].
  - specialize (H1 inp cur). destruct (g inp cur) as [[y k|e c| |] w2]; cbn [snd] in *; try (apply Forall_app; now split). apply IH, Forall_app. now split.
Qed.
Lemma t_rep : forall A B (g : wparser A) r (s : option (wparser B)), tells g -> (forall h, s = Some h -> tells h) -> tells (w_rep g r s).
Proof.
  intros A B g r s H1 H2 inp off. unfold w_rep. pose proof (H1 inp off) as K. destruct (g inp off) as [[x n|e c| |] w]; cbn [snd] in *; try assumption.
  pose proof (t_loop H1 H2 (rep_fuel (rg_end r) inp off) (rg_end r) (off + n) [x] n K) as E. now destruct (w_loop _ g s _ inp (off + n) [x] n w) as [d w'].
Qed.
Lemma t_rep0 : forall A (g : wparser A) r, tells g -> tells (w_rep g r (None : option (wparser unit))).
Proof. intros A g r H. apply t_rep; [exact H|discriminate]. Qed.
Lemma t_rep1 : forall A B (g : wparser A) r (h : wparser B), tells g -> tells h -> tells (w_rep g r (Some h)).
Proof. intros A B g r h H1 H2. apply t_rep; [exact H1|]. intros h' E. now injection E as <-. Qed.
Lemma t_rest : forall A (g : wparser A) h, tells g -> tells h -> forall fuel x, tells (w_rest fuel g h x).
Proof.
  intros A g h H1 H2. induction fuel as [|fuel IH]; intros x inp off; cbn [w_rest]; [constructor|]. specialize (H2 inp off). destruct (h inp off) as [[f n|e c| |] w]; cbn [snd] in *; try assumption.
  specialize (H1 inp (off + n)). destruct (g inp (off + n)) as [[y m|e c| |] w2]; cbn [snd] in *; try (apply Forall_app; now split).
  specialize (IH (f x y) inp (off + n + m)). destruct (w_rest fuel g h (f x y) inp (off + n + m)) as [r w3]. cbn [snd] in *. apply Forall_app; split; [assumption|]. apply Forall_app. now split.
Qed.
Lemma t_chain : forall A (g : wparser A) h, tells g -> tells h -> tells (w_chain_left1 g h).
Proof.
  intros A g h H1 H2 inp off. unfold w_chain_left1. pose proof (H1 inp off) as K. destruct (g inp off) as [[v n|e c| |] w]; cbn [snd] in *; try assumption.
  pose proof (t_rest H1 H2 (chain_fuel inp (off + n)) v inp (off + n)) as E. destruct (w_rest _ g h v inp (off + n)) as [r w2]. cbn [snd] in *. apply Forall_app. now split.
Qed.
Lemma t_log_map : forall A (g : wparser A) p name lv f, werases g p -> tells g -> (forall inp off, P inp (Line lv (name ++ bs " = " ++ f (p inp off)))) -> tells (w_log_map g name lv f).
Proof.
  intros A g p name lv f He Hg H inp off. unfold w_log_map. specialize (He inp off). specialize (Hg inp off). specialize (H inp off). rewrite <- He in H.
  destruct (g inp off) as [[x n|e c| |] w]; cbn [fst snd] in *; try assumption; apply Forall_app; split; try assumption; constructor; try assumption; constructor.
Qed.
End Tells.

(** ** At least so many lines *)
(** Among the lines [w] there are [k] with [Q]. *)
Definition many (Q : line -> Prop) (k : nat) (w : list line) : Prop := exists l r, Permutation w (l ++ r) /\ length l = k /\ Forall Q l.
Lemma many_0 : forall Q w, many Q 0 w.
Proof. intros Q w. exists [], w. repeat split; [reflexivity|constructor]. Qed.
Lemma many_app : forall Q j k v w, many Q j v -> many Q k w -> many Q (j + k) (v ++ w).
Proof.
  intros Q j k v w (l & r & P1 & <- & F1) (l' & r' & P2 & <- & F2). exists (l ++ l'), (r ++ r'). rewrite app_length. split; [|split; [reflexivity|now apply Forall_app]].
  rewrite P1, P2, <- !app_assoc. apply Permutation_app_head. rewrite !app_assoc. apply Permutation_app_tail, Permutation_app_comm.
Qed.
Lemma many_le : forall Q j k w, j <= k -> many Q k w -> many Q j w.
Proof.
  intros Q j k w L (l & r & P1 & E & F). exists (firstn j l), (skipn j l ++ r). split; [now rewrite app_assoc, firstn_skipn|]. split; [rewrite firstn_length; lia|].
  rewrite <- (firstn_skipn j l) in F. now apply Forall_app in F.
Qed.
(** A success of [g] with the value [v] has written at least [m v] lines with [Q]. *)
Definition counts {A} (Q : list N -> line -> Prop) (m : A -> nat) (g : wparser A) : Prop :=
  forall inp off v n w, g inp off = (Success v n, w) -> many (Q inp) (m v) w.
Section Counts.
Variable Q : list N -> line -> Prop.
Lemma k_le : forall A (m m' : A -> nat) g, (forall v, m' v <= m v) -> counts Q m g -> counts Q m' g.
Proof. intros A m m' g L H inp off v n w E. eapply many_le; [apply L|]. eapply H, E. Qed.
Lemma k_zero : forall A (g : wparser A), counts Q (fun _ => 0) g.
Proof. intros A g inp off v n w _. apply many_0. Qed.
Lemma k_leaf : forall A (m : A -> nat) p, (forall inp off v n, p inp off = Success v n -> m v = 0) -> counts Q m (w_leaf p).
Proof. intros A m p H inp off v n w E. injection E as E <-. rewrite (H _ _ _ _ E). apply many_0. Qed.
Lemma k_map : forall A B (m : A -> nat) (m' : B -> nat) g f, (forall v, m' (f v) <= m v) -> counts Q m g -> counts Q m' (w_map g f).
Proof.
  intros A B m m' g f L H inp off v n w E. unfold w_map, w_one, p_map in E. destruct (g inp off) as [[x k|e c| |] w1] eqn:Eg; try discriminate. injection E as <- _ <-.
  eapply many_le; [apply L|]. eapply H, Eg.
Qed.
Lemma k_attempt : forall A (m : A -> nat) g, counts Q m g -> counts Q m (w_attempt g).
Proof.
  intros A m g H inp off v n w E. unfold w_attempt, w_one, p_attempt, with_uncommitted in E. destruct (g inp off) as [[x k|e c| |] w1] eqn:Eg; cbn in E; try discriminate; [|destruct c; discriminate]. injection E as <- _ <-. eapply H, Eg.
Qed.
Lemma k_name : forall A (m : A -> nat) g s, counts Q m g -> counts Q m (w_name g s).
Proof.
  intros A m g s H inp off v n w E. unfold w_name, w_one, p_name in E. destruct (g inp off) as [[x k|e c| |] w1] eqn:Eg; try discriminate; [injection E as <- _ <-; eapply H, Eg|].
  destruct (is_custom e); discriminate.
Qed.
Lemma k_two : forall A B C (k : parser N A -> parser N B -> parser N C) (j : A -> B -> C) m1 m2 (m : C -> nat) g h,
  (forall p q inp off, k p q inp off = match p inp off with Success x n => match q inp (off + n) with Success y n' => Success (j x y) (n + n') | Failure e c => k p q inp off
     | Panic => Panic | Diverge => Diverge end | Failure e c => Failure e c | Panic => Panic | Diverge => Diverge end) ->
  (forall p q inp off x n e c, p inp off = Success x n -> q inp (off + n) = Failure e c -> forall v n', k p q inp off <> Success v n') ->
  (forall x y, m (j x y) <= m1 x + m2 y) -> counts Q m1 g -> counts Q m2 h -> counts Q m (w_two k g h).
Proof.
  intros A B C k j m1 m2 m g h K K2 L H1 H2 inp off v n w E. unfold w_two in E. destruct (g inp off) as [[x i|e c| |] w1] eqn:Eg.
  - destruct (h inp (off + i)) as [o2 w2] eqn:Eh. injection E as E <-. destruct o2 as [y i2|e c| |].
    + rewrite K in E. injection E as <- _. eapply many_le; [apply L|]. apply many_app; [eapply H1, Eg|eapply H2, Eh].
    + exfalso. now eapply (K2 (fun _ _ => Success x i) (fun _ _ => Failure e c)) in E.
    + rewrite K in E. discriminate.
    + rewrite K in E. discriminate.
  - rewrite K in E. discriminate.
  - rewrite K in E. discriminate.
  - rewrite K in E. discriminate.
Qed.
Lemma k_and : forall A B m1 m2 (g : wparser A) (h : wparser B), counts Q m1 g -> counts Q m2 h -> counts Q (fun xy => m1 (fst xy) + m2 (snd xy)) (w_and g h).
Proof.
  intros A B m1 m2 g h. apply k_two with (j := pair); [| |now intros].
  - intros p q inp off. unfold p_and. destruct (p inp off); try reflexivity. now destruct (q inp _).
  - intros p q inp off x n e c E1 E2 v n'. unfold p_and. rewrite E1, E2. discriminate.
Qed.
Lemma k_skip_left : forall A B m (g : wparser A) (h : wparser B), counts Q m h -> counts Q m (w_skip_left g h).
Proof.
  intros A B m g h H. apply k_two with (j := fun _ y => y) (m1 := fun _ => 0) (m2 := m); [| |now intros|apply k_zero|exact H].
  - intros p q inp off. unfold p_skip_left. destruct (p inp off); try reflexivity. now destruct (q inp _).
  - intros p q inp off x n e c E1 E2 v n'. unfold p_skip_left. rewrite E1, E2. discriminate.
Qed.
Lemma k_skip_right : forall A B m (g : wparser A) (h : wparser B), counts Q m g -> counts Q m (w_skip_right g h).
Proof.
  intros A B m g h H. apply k_two with (j := fun x _ => x) (m1 := m) (m2 := fun _ => 0); [| |intros; lia|exact H|apply k_zero].
  - intros p q inp off. unfold p_skip_right. destruct (p inp off); try reflexivity. now destruct (q inp _).
  - intros p q inp off x n e c E1 E2 v n'. unfold p_skip_right. rewrite E1, E2. discriminate.
Qed.
Lemma k_surround : forall A B C m (g : wparser A) (h : wparser B) (k : wparser C), counts Q m h -> counts Q m (w_surround g h k).
Proof. intros. now apply k_skip_left, k_skip_right. Qed.
Lemma k_or : forall A m (g h : wparser A), counts Q m g -> counts Q m h -> counts Q m (w_or g h).
Proof.
  intros A m g h H1 H2 inp off v n w E. unfold w_or in E. destruct (g inp off) as [[x k|e [|]| |] w1] eqn:Eg; try discriminate; [injection E as <- _ <-; eapply H1, Eg|].
  destruct (h inp off) as [o2 w2] eqn:Eh. injection E as -> <-. change (m v) with (0 + m v). apply many_app; [apply many_0|eapply H2, Eh].
Qed.
Lemma k_opt : forall A m (g : wparser A), counts Q m g -> counts Q (fun o => match o with Some v => m v | None => 0 end) (w_opt g).
Proof.
  intros A m g H. apply k_or; [apply k_map with (m := m); [now intros|now apply k_attempt]|]. apply k_leaf. intros inp off v n E. now injection E as <- _.
Qed.
Lemma k_loop : forall A B m (g : wparser A) (s : option (wparser B)), counts Q m g -> forall fuel rend inp cur items all w l n w',
  many (Q inp) (list_sum (map m items)) w -> w_loop fuel g s rend inp cur items all w = (RDone l n, w') -> many (Q inp) (list_sum (map m l)) w'.
Proof.
  intros A B m g s H. assert (R : forall l, list_sum (map m (rev l)) = list_sum (map m l)).
  { induction l as [|x l IH]; [reflexivity|]. cbn [rev]. rewrite map_app, list_sum_app, IH. unfold list_sum. cbn [map fold_right]. lia. }
  induction fuel as [|fuel IH]; intros rend inp cur items all w l n w' Hw E; cbn [w_loop] in E; [discriminate|].
  destruct (rep_stop rend (length items)); [injection E as <- _ <-; now rewrite R|].
  assert (Step : forall cur all w, many (Q inp) (list_sum (map m items)) w ->
    (let '(o, w1) := g inp cur in match o with
       | Success v n => w_loop fuel g s rend inp (cur + n) (v :: items) (all + n) (w ++ w1) | Failure _ _ => (RDone (rev items) all, w ++ w1) | Panic => (RPanic, w ++ w1)
       | Diverge => (RDiverge, w ++ w1) end) = (RDone l n, w') -> many (Q inp) (list_sum (map m l)) w').
  { clear E w Hw cur all. intros cur all w Hw E. destruct (g inp cur) as [[v k|e c| |] w1] eqn:Eg; try discriminate.
    - eapply IH; [|exact E]. cbn [map list_sum fold_right]. rewrite Nat.add_comm. apply many_app; [exact Hw|eapply H, Eg].
    - injection E as <- _ <-. rewrite R, <- (Nat.add_0_r (list_sum _)). apply many_app; [exact Hw|apply many_0]. }
  destruct s as [h|]; [|now apply (Step cur all w)]. destruct (h inp cur) as [[x k|e c| |] w1]; try discriminate.
  - apply (Step (cur + k) (all + k) (w ++ w1)); [|exact E]. rewrite <- (Nat.add_0_r (list_sum _)). apply many_app; [exact Hw|apply many_0].
  - injection E as <- _ <-. rewrite R, <- (Nat.add_0_r (list_sum _)). apply many_app; [exact Hw|apply many_0].
Qed.
Lemma k_rep : forall A B m (g : wparser A) r (s : option (wparser B)), counts Q m g -> counts Q (fun l => list_sum (map m l)) (w_rep g r s).
Proof.
  intros A B m g r s H inp off v n w E. unfold w_rep in E. destruct (g inp off) as [[x i|e c| |] w1] eqn:Eg.
  - destruct (w_loop _ g s _ inp (off + i) [x] i w1) as [d w2] eqn:El. injection E as E <-. destruct d as [l k| |]; try discriminate. unfold rep_finish in E.
    assert (K : many (Q inp) (list_sum (map m l)) w2) by (eapply k_loop; [exact H| |exact El]; cbn [map list_sum fold_right]; rewrite Nat.add_0_r; eapply H, Eg).
    assert (v = l) as ->; [|exact K]. revert E. clear. intros E. repeat match type of E with context [match ?x with _ => _ end] => destruct x; try discriminate end; congruence.
  - injection E as E <-. assert (v = []) as ->; [|apply many_0]. revert E. clear. unfold rep_finish. intros E. repeat match type of E with context [match ?x with _ => _ end] => destruct x; try discriminate end; congruence.
  - injection E as E <-. discriminate.
  - injection E as E <-. discriminate.
Qed.
Lemma k_chain : forall A m (mo : (A -> A -> A) -> nat) (g : wparser A) h op, werases h op -> counts Q m g -> counts Q mo h ->
  (forall inp off f n, op inp off = Success f n -> forall x y, m (f x y) <= m x + m y + mo f) -> counts Q m (w_chain_left1 g h).
Proof.
  intros A m mo g h op He H1 H2 L.
  assert (R : forall fuel x inp off v n w, w_rest fuel g h x inp off = (Success v n, w) -> forall w0, many (Q inp) (m x) w0 -> many (Q inp) (m v) (w0 ++ w)).
  { induction fuel as [|fuel IH]; intros x inp off v n w E w0 H0; cbn [w_rest] in E; [discriminate|]. specialize (He inp off).
    assert (S0 : forall w, many (Q inp) (m x) (w0 ++ w)) by (intros w'; rewrite <- (Nat.add_0_r (m x)); apply many_app; [exact H0|apply many_0]).
    destruct (h inp off) as [[f i|e c| |] w1] eqn:Eh; try discriminate.
    - destruct (g inp (off + i)) as [[y j|e c| |] w2] eqn:Eg; try discriminate.
      + destruct (w_rest fuel g h (f x y) inp (off + i + j)) as [r w3] eqn:Er. injection E as E <-. unfold p_or in E.
        destruct r as [z k|e c| |]; cbn [advance_success add_commit] in E; try discriminate.
        * injection E as <- _. rewrite !app_assoc. apply (IH _ _ _ _ _ _ Er). cbn [fst] in He. eapply many_le; [apply (L _ _ _ _ (eq_sym He))|].
          rewrite <- Nat.add_assoc, (Nat.add_comm (m y)), Nat.add_assoc. apply many_app; [apply many_app; [exact H0|eapply H2, Eh]|eapply H1, Eg].
        * destruct (negb (i =? 0)), c; cbn in E; try discriminate; injection E as <- _; apply S0.
      + injection E as E <-. unfold p_or in E. destruct (negb (i =? 0)), c; cbn in E; try discriminate; injection E as <- _; apply S0.
    - injection E as E <-. unfold p_or in E. destruct c; cbn in E; try discriminate; injection E as <- _; apply S0. }
  intros inp off v n w E. unfold w_chain_left1 in E. destruct (g inp off) as [[x i|e c| |] w1] eqn:Eg; try discriminate.
  destruct (w_rest _ g h x inp (off + i)) as [r w2] eqn:Er. injection E as E <-. destruct r as [z k|e c| |]; cbn in E; try discriminate. injection E as <- _. eapply R; [exact Er|]. eapply H1, Eg.
Qed.
End Counts.
