(** C81-C89: the toys parsers. *)
From Verif Require Import PropsA PropsB PropsF PropsG PropsI.
From Verif Require Import Base Core Comb Closure Text Hoare Runs ChainRules Agree Json JsonSpec JsonFacts Toys ToysSyntax ToysParse ToysParseSound ToysParseComplete CalcFacts.
From Coq Require Import ZArith.
Set Implicit Arguments.
Local Open Scope string_scope.
Local Open Scope nat_scope.
Local Open Scope list_scope.

(** ** C81 *)
(** Every run returns. *)
Definition returns {A} (o : outcome N A) : Prop := match o with Success _ _ | Failure _ _ => True | Panic | Diverge => False end.
Theorem C81_returns : forall nd s, ascii_class nd ->
  returns (parse (program nd) s) /\ returns (parse (lines nd) s) /\ returns (parse (line nd) s) /\ returns (parse (expression nd) s).
Proof.
  assert (G : forall A (p : parser N A) Q s, hoare p Q -> returns (parse p s)).
  { intros A p Q s H. specialize (H s 0 (Nat.le_0_l _)). unfold parse. destruct (p s 0); exact I || exact H. }
  intros nd s H. repeat split; eapply G; [apply h_program|apply h_lines|apply h_line|apply h_expression]; exact H.
Qed.
Print Assumptions C81_returns.
(** The recursion depth stays below the length of the input: a larger bound changes nothing. *)
Theorem C81_depth : forall nd s fuel, ascii_class nd -> length s < fuel ->
  parse (line_fuel nd fuel) s = parse (line nd) s /\ parse (expression_fuel nd fuel) s = parse (expression nd) s.
Proof. intros nd s fuel H L. split; [now apply line_enough|now apply expression_enough]. Qed.
Print Assumptions C81_depth.
Example C81_example :
  is_ok (parse (program nd0) (bs "fn main() { while (x < (1 + 2) * 3) { x = x + 1; if (x == 2) println(""a""); else { } } }")) = true /\
  is_fail (parse (lines nd0) (bs "x = ;")) = true /\ returns (parse (lines nd0) (bs "x = ;")).
Proof. repeat split; vm_compute; exact eq_refl || exact I. Qed.

(** ** C82 *)
(** What is accepted is, apart from white space in front, a text of the grammar, and the result is its tree. *)
Theorem C82_program_sound : forall nd s e n, ascii_class nd -> parse (program nd) s = Success e n ->
  n <= length s /\ exists a t es, firstn n s = a ++ t /\ ws a /\ defs false es t /\ e = EProgram es.
Proof.
  intros nd s e n H E. pose proof (@h_program nd H s 0 (Nat.le_0_l _)) as K. unfold parse in E. rewrite E in K. destruct K as [L (es & -> & a & t & Et & Ha & G)].
  split; [exact L|]. now exists a, t, es.
Qed.
Print Assumptions C82_program_sound.
Theorem C82_lines_sound : forall nd s es n, ascii_class nd -> parse (lines nd) s = Success es n ->
  n = length s /\ es <> [] /\ exists a t, s = a ++ t /\ ws a /\ stms false es t.
Proof.
  intros nd s es n H E. assert (Hn : n = length s).
  { pose proof (@h_lines nd H s 0 (Nat.le_0_l _)) as K. unfold parse in E. rewrite E in K. destruct K as [K _]. cbn in K.
    unfold lines in E. unfold p_skip_right at 1 in E. destruct (p_skip_right (p_many1 (line nd)) t_space s 0) as [v m| | |]; try discriminate.
    unfold p_end in E. destruct (ps_input s (0 + m)) as [l|] eqn:E2; [|discriminate]. destruct l as [|x l]; [|discriminate].
    unfold ps_input in E2. apply slice_from_some in E2. destruct E2 as [L E2]. injection E as _ <-.
    assert (Q : length (skipn (0 + m) s) = 0) by now rewrite <- E2. rewrite skipn_length in Q. lia. }
  split; [exact Hn|]. pose proof (@h_lines nd H s 0 (Nat.le_0_l _)) as K. unfold parse in E. rewrite E in K. destruct K as [_ [Hne (a & t & Et & Ha & G)]].
  split; [exact Hne|]. cbn [skipn] in Et. subst n. rewrite firstn_all in Et. now exists a, t.
Qed.
Print Assumptions C82_lines_sound.
Theorem C82_expression_sound : forall nd s e n, ascii_class nd -> parse (expression nd) s = Success e n ->
  n <= length s /\ exists a t, firstn n s = a ++ t /\ ws a /\ lev false 4 e t.
Proof.
  intros nd s e n H E. pose proof (@h_expression nd H s 0 (Nat.le_0_l _)) as K. unfold parse in E. rewrite E in K. destruct K as [L K].
  split; [exact L|]. apply xlev_led in K. exact K.
Qed.
Print Assumptions C82_expression_sound.
Example C82_example :
  parse (expression nd0) (bs "1 + 2 * 3 ) x") = Success (EBin OAdd (EInt 1) (EBin OMul (EInt 2) (EInt 3))) 10 /\
  lev false 4 (EBin OAdd (EInt 1) (EBin OMul (EInt 2) (EInt 3))) (bs "1 + 2 * 3 ").
Proof.
  assert (E : parse (expression nd0) (bs "1 + 2 * 3 ) x") = Success (EBin OAdd (EInt 1) (EBin OMul (EInt 2) (EInt 3))) 10) by (vm_compute; reflexivity).
  split; [exact E|]. destruct (@C82_expression_sound nd0 _ _ _ nd0_ok E) as [_ (a & t & Et & Ha & G)]. destruct a as [|x a]; [cbn in Et; now rewrite <- Et in G|].
  cbn in Et. injection Et as <- _. inversion Ha as [|? ? Hx _]. cbn in Hx. lia.
Qed.

(** ** C83 *)
(** The strict grammar is part of the grammar. *)
Theorem C83_strict_is_part : (forall k e s, lev true k e s -> lev false k e s) /\ (forall op e s, stm true op e s -> stm false op e s) /\
  (forall es s, defs true es s -> defs false es s).
Proof.
  assert (G : (forall k e s, lev true k e s -> lev false k e s) /\ (forall es s, args true es s -> args false es s) /\ (forall es s, more_args true es s -> more_args false es s) /\
    (forall ps s, params true ps s -> params false ps s) /\ (forall ps s, more_params true ps s -> more_params false ps s)).
  { apply (@lev_ind5 true (fun k e s _ => lev false k e s) (fun es s _ => args false es s) (fun es s _ => more_args false es s) (fun ps s _ => params false ps s) (fun ps s _ => more_params false ps s));
      intros; try (econstructor; eassumption). constructor; [assumption|discriminate|assumption]. }
  destruct G as [G _]. split; [exact G|].
  assert (S : (forall op e s, stm true op e s -> stm false op e s) /\ (forall es s, stms true es s -> stms false es s)).
  { apply (@stm_ind2 true (fun op e s _ => stm false op e s) (fun es s _ => stms false es s)); intros.
    - apply s_println; auto.
    - apply s_while; auto.
    - apply s_for; auto; discriminate.
    - eapply s_if; eauto.
    - eapply s_ifelse; eauto; discriminate.
    - apply s_assign; auto.
    - apply s_expr; auto; discriminate.
    - apply s_block; auto.
    - constructor.
    - econstructor; eauto; discriminate. }
  split; [apply S|]. intros es s H. induction H as [|e es s t Hd _ IH]; constructor; [|exact IH]. destruct Hd; [apply d_global|apply d_fun]; auto. now apply S.
Qed.
Print Assumptions C83_strict_is_part.
(** Every program of the strict grammar is accepted, whole, with its tree, whatever follows as long as it cannot start another definition. *)
Theorem C83_program_complete : forall nd es s a rest, ascii_class nd -> defs true es s -> ws a ->
  match rest with [] => True | x :: _ => ~ is_ws x /\ x <> chr "g" /\ x <> chr "f" end ->
  parse (program nd) (a ++ s ++ rest) = Success (EProgram es) (length (a ++ s)).
Proof. intros nd es s a rest H G Ha Hr. pose proof (acc_parse (@a_program nd H es s a rest G Ha Hr)) as K. now rewrite <- app_assoc in K. Qed.
Print Assumptions C83_program_complete.
Theorem C83_lines_complete : forall nd es s a, ascii_class nd -> stms true es s -> es <> [] -> ws a -> parse (lines nd) (a ++ s) = Success es (length (a ++ s)).
Proof. intros nd es s a H G Hn Ha. pose proof (acc_parse (@a_lines nd H es s a G Hn Ha)) as K. now rewrite app_nil_r in K. Qed.
Print Assumptions C83_lines_complete.
(** An expression followed by one of ) ] , ; or nothing; trailing white space may be left behind a string. *)
Theorem C83_expression_complete : forall nd e s rest, ascii_class nd -> lev true 4 e s -> match rest with [] => True | x :: _ => In x (bs ")],;") end ->
  exists n, parse (expression nd) (s ++ rest) = Success e n /\ n <= length s /\ ws (skipn n s).
Proof.
  intros nd e s rest H G Hr. destruct (@a_expr0 nd H e s rest G) as (s1 & s2 & -> & W & C).
  - destruct rest as [|x r]; [exact I|]. left. exact Hr.
  - exists (length s1). pose proof (acc_parse C) as K. rewrite <- app_assoc. split; [exact K|]. rewrite app_length. split; [lia|].
    rewrite skipn_app, skipn_all, Nat.sub_diag. exact W.
Qed.
Print Assumptions C83_expression_complete.
(** One tree per text. *)
Theorem C83_unambiguous : forall s, (forall es es', defs true es s -> defs true es' s -> es = es') /\ (forall es es', stms true es s -> stms true es' s -> es = es') /\
  (forall e e', lev true 4 e s -> lev true 4 e' s -> e = e').
Proof.
  intros s. repeat split.
  - intros es es' H H'. pose proof (@C83_program_complete nd0 es s [] [] nd0_ok H ws_nil I) as E. pose proof (@C83_program_complete nd0 es' s [] [] nd0_ok H' ws_nil I) as E'. congruence.
  - intros es es' H H'. assert (N : forall es, stms true es s -> es = [] <-> s = []).
    { intros l K. split; [intros ->; now inversion K|]. intros ->. inversion K as [|op e es0 u t Ks _ _ E1 E2]; [reflexivity|]. apply app_eq_nil in E2. destruct E2 as [-> _].
      apply stm_ne in Ks. congruence. }
    destruct es as [|e es].
    + symmetry. apply (N _ H'), (N _ H). reflexivity.
    + assert (es' <> []) as Hn by (intros ->; assert (Es : s = []) by (now apply (N _ H')); apply (N _ H) in Es; discriminate).
      pose proof (@C83_lines_complete nd0 _ s [] nd0_ok H ltac:(discriminate) ws_nil) as E. pose proof (@C83_lines_complete nd0 _ s [] nd0_ok H' Hn ws_nil) as E'. congruence.
  - intros e e' H H'. destruct (@C83_expression_complete nd0 e s [] nd0_ok H I) as (n & E & _). destruct (@C83_expression_complete nd0 e' s [] nd0_ok H' I) as (n' & E' & _). congruence.
Qed.
Print Assumptions C83_unambiguous.
Example C83_example :
  defs true [EGlobal (bs "n") (EInt 3); EFun (bs "main") [] (EBlock [EPrintln (EBin OMul (EInt 2) (ESymbol (bs "n")))])] (bs "global n = 3; fn main() { println(2 * n); }") /\
  parse (program nd0) (bs "  global n = 3; fn main() { println(2 * n); }") =
    Success (EProgram [EGlobal (bs "n") (EInt 3); EFun (bs "main") [] (EBlock [EPrintln (EBin OMul (EInt 2) (ESymbol (bs "n")))])]) 45.
Proof.
  split; [|vm_compute; reflexivity].
  assert (L : forall t w, ws w -> lx t (t ++ w)) by (intros t w Hw; now exists w).
  assert (W1 : ws (bs " ")) by (constructor; [cbn; lia|constructor]). pose proof ws_nil as W0.
  assert (Wd : forall c t, letter_ c -> forallb ident_char t = true -> word (c :: t)).
  { intros c t Hc Ht. exists c, t. repeat split; [exact Hc|]. apply Forall_forall. intros y Hy. rewrite forallb_forall in Ht. now apply ichar_iff, Ht. }
  assert (Up : forall e s, lev true 0 e s -> lev true 4 e s) by (intros e s H; do 4 (apply l_up; [|lia]); exact H).
  change (bs "global n = 3; fn main() { println(2 * n); }") with
    ((bs "global " ++ bs "n " ++ bs "= " ++ bs "3" ++ bs "; ") ++
     (bs "fn " ++ bs "main" ++ bs "(" ++ [] ++ bs ") " ++ bs "{ " ++ ((bs "println" ++ bs "(" ++ (bs "2 " ++ bs "* " ++ bs "n") ++ bs ")" ++ bs "; ") ++ []) ++ bs "}") ++ []).
  assert (I3 : forall d w, digit d -> ws w -> lev true 0 (EInt (Z.of_N (d - 48))) ([d] ++ w)).
  { intros d w Hd Hw. apply l_int with (t := [d]); [|now apply L]. exists [d]. repeat split.
    - constructor; [exact Hd|constructor].
    - discriminate.
    - left. split; [reflexivity|]. reflexivity.
    - lia.
    - unfold digit in Hd. lia. }
  constructor; [|constructor; [|constructor]].
  - apply d_global; [apply (L (bs "global") (bs " ") W1)|apply Wd; [unfold letter_; cbn; lia|reflexivity]|apply (L (bs "n") (bs " ") W1)|apply (L (bs "=") (bs " ") W1)| |apply (L (bs ";") (bs " ") W1)].
    apply Up. apply (I3 51%N []); [unfold digit; lia|exact W0].
  - apply d_fun with (xs := []).
    + apply (L (bs "fn") (bs " ") W1).
    + apply Wd; [unfold letter_; cbn; lia|reflexivity].
    + apply (L (bs "main") [] W0).
    + apply (L (bs "(") [] W0).
    + apply n_none.
    + apply (L (bs ")") (bs " ") W1).
    + apply (L (bs "{") (bs " ") W1).
    + eapply ss_cons with (op := false); [|discriminate|apply ss_nil]. apply s_println; [apply (L (bs "println") [] W0)|apply (L (bs "(") [] W0)| |apply (L (bs ")") [] W0)|apply (L (bs ";") (bs " ") W1)].
      do 3 (apply l_up; [|lia]). apply l_bin; [apply l_up; [|lia]|reflexivity|apply (L (bs "*") (bs " ") W1)|].
      * apply (I3 50%N (bs " ")); [unfold digit; lia|exact W1].
      * apply l_sym; [apply Wd; [unfold letter_; cbn; lia|reflexivity]| |apply (L (bs "n") [] W0)]. intros _. split; intros [t E]; discriminate.
    + apply (L (bs "}") [] W0).
Qed.

(** ** C84 *)
(** Should be: a text that is not a program is rejected.  It is not: [program] accepts every text. *)
Theorem C84_program_never_fails : forall nd s, ascii_class nd -> exists es n, parse (program nd) s = Success (EProgram es) n.
Proof.
  intros nd s H. destruct (C81_returns s H) as [R _]. unfold parse in *. pose proof (@h_program nd H s 0 (Nat.le_0_l _)) as K.
  destruct (program nd s 0) as [e n|err c| |] eqn:E; try contradiction; [destruct K as [_ (es & -> & _)]; now exists es, n|].
  exfalso. unfold program, p_skip_left in E. destruct (ws_split s) as (w & r & -> & Hw & Hr). pose proof (@a_tspace w r Hw Hr []) as T. cbn [app length] in T. rewrite T in E.
  unfold p_map in E. destruct (p_many0 (top_level_definition nd) (w ++ r) (0 + length w)) as [v m|err' c'| |] eqn:E2; try discriminate. now apply C12_many0_never_fails in E2.
Qed.
Print Assumptions C84_program_never_fails.
(** What is left over does not begin with a definition: everything up to the first error is read, nothing after it. *)
Theorem C84_first_error : forall nd s e n, ascii_class nd -> parse (program nd) s = Success e n ->
  forall a d rest e', skipn n s = a ++ d ++ rest -> ws a -> ~ def true e' d.
Proof.
  intros nd s e n H E a d rest e' Es Ha Hd. unfold parse, program, p_skip_left in E.
  destruct (t_space s 0) as [u k| | |] eqn:E1; try discriminate. unfold p_map in E.
  destruct (p_many0 (top_level_definition nd) s (0 + k)) as [v m| | |] eqn:E2; try discriminate. inv E. cbn [Nat.add] in *.
  pose proof (@h_tspace s 0 (Nat.le_0_l _)) as K. rewrite E1 in K. destruct K as [K _].
  apply C12_many0_maximal in E2; [|eapply h_bounded; unfold top_level_definition; apply h_name, h_or; [apply h_global|apply h_function]; exact H|exact K]. destruct E2 as [St (er & c & F)].
  destruct (ws_split rest) as (w & r & -> & Hw & Hr).
  pose proof (def_ne Hd) as Nd. assert (D : def true e' (d ++ w)) by now apply def_ws.
  pose proof (@a_top nd H e' (d ++ w) a r D Ha Hr (firstn (k + m) s)) as A.
  rewrite <- !app_assoc, <- Es, firstn_skipn in A.
  assert (L : k + m <= length s).
  { destruct (Nat.le_gt_cases (k + m) (length s)) as [C|C]; [exact C|]. exfalso.
    rewrite skipn_all2 in Es by lia. destruct a; [|discriminate]. destruct d; [now apply Nd|discriminate]. }
  rewrite firstn_length_le in A by exact L. congruence.
Qed.
Print Assumptions C84_first_error.
(** A definition, an unfinished one, and another: the parser stops where the unfinished one begins. *)
Example C84_first_error_case :
  let s := bs "global x = 1; fn f() { 2; global y = 3;" in
  parse (program nd0) s = Success (EProgram [EGlobal (bs "x") (EInt 1)]) 14 /\
  skipn 14 s = bs "fn f() { 2; global y = 3;".
Proof. split; vm_compute; reflexivity. Qed.
Theorem C84_errors_reported_refuted : exists s, (forall a t es, s = a ++ t -> ws a -> ~ defs false es t) /\ forall nd, ascii_class nd -> exists e n, parse (program nd) s = Success e n.
Proof.
  exists (bs "xx"). split.
  - intros a t es E Ha G. assert (t = bs "xx") as ->.
    { destruct a as [|x a]; [now symmetry|]. cbn in E. injection E as <- _. inversion Ha as [|? ? Hx _]. cbn in Hx. lia. }
    clear E. inversion G as [E|e es' u t' [x e' k n q s m (w & -> & _)|f xs es0 k n o s c p t q (w & -> & _)] _ E1 E2]; discriminate.
  - intros nd H. destruct (C84_program_never_fails (bs "xx") H) as (es & n & E). eauto.
Qed.
Print Assumptions C84_errors_reported_refuted.
(** [lines] reports every error: what it accepts is, to the end, a sequence of statements. *)
Theorem C84_errors_reported_partial : forall nd s, ascii_class nd -> (forall a t es, s = a ++ t -> ws a -> ~ stms false es t) -> exists err c, parse (lines nd) s = Failure err c.
Proof.
  intros nd s H N. destruct (C81_returns s H) as (_ & R & _). destruct (parse (lines nd) s) as [es n|err c| |] eqn:E; try contradiction; [|now exists err, c].
  exfalso. destruct (@C82_lines_sound nd s es n H E) as (_ & _ & a & t & Es & Ha & G). now apply (N a t es).
Qed.
Print Assumptions C84_errors_reported_partial.
(** Everything from the first error on is dropped, also a whole function whose closing brace is missing. *)
Example C84_example :
  parse (program nd0) (bs "fn main() { println(1); } xx") = Success (EProgram [EFun (bs "main") [] (EBlock [EPrintln (EInt 1)])]) 26 /\
  parse (program nd0) (bs "fn main() { println(1); ") = Success (EProgram []) 0 /\
  is_fail (parse (lines nd0) (bs "println(1); xx")) = true.
Proof. repeat split; vm_compute; reflexivity. Qed.

(** ** C85 *)
(** Should be: every identifier can be used as an expression. *)
Theorem C85_names_partial : forall nd x, ascii_class nd -> word x -> plain_name x -> parse (expression nd) x = Success (ESymbol x) (length x).
Proof.
  intros nd x H Hx Hp. assert (G : lev true 4 (ESymbol x) x).
  { do 4 (apply l_up; [|lia]). apply l_sym; auto. exists []. split; [now rewrite app_nil_r|apply ws_nil]. }
  destruct (@C83_expression_complete nd (ESymbol x) x [] H G I) as (n & E & L & W). rewrite app_nil_r in E. rewrite E. f_equal.
  destruct (Nat.eq_dec n (length x)) as [|Hn]; [assumption|exfalso]. apply (@word_not_off x Hx).
  exists (firstn n x), (skipn n x). split; [now rewrite firstn_skipn|]. split; [exact W|]. intros K. apply (f_equal (@length N)) in K. rewrite skipn_length in K. cbn in K. lia.
Qed.
Print Assumptions C85_names_partial.
Lemma r_false_tag : forall y r, y <> chr "a" -> rej (p_tag (bs "false")) (chr "f" :: y :: r) true.
Proof.
  intros y r H pre. unfold p_tag, p_tag_by. rewrite input_at. cbn [bs tag_loop]. change (chr "f" =? chr "f")%N with true. cbn [negb].
  destruct (N.eqb_spec (chr "a") y) as [E|_]; [congruence|]. cbn [negb]. eauto.
Qed.
(** A name that starts with f, but not with fa, and is not called is rejected, in a way that stops every alternative. *)
Theorem C85_names_with_f_rejected : forall nd x y t w rest, ascii_class nd -> word x -> x = chr "f" :: y :: t -> y <> chr "a" -> ws w ->
  match rest with [] => True | z :: _ => In z (bs ")],;&|<>=!+-%*/") end -> exists err, parse (expression nd) (x ++ w ++ rest) = Failure err true.
Proof.
  intros nd x y t w rest H Hx Ex Hy Hw Hr. apply rej_parse. intros pre. unfold expression. revert pre.
  assert (G : forall n, rej (expression_fuel nd (S n)) (x ++ w ++ rest) true); [|intros pre; apply G]. intros n. rewrite levp_expression. apply r_name.
  assert (F : fol 0 (x ++ w) rest) by (destruct rest as [|z r]; [exact I|]; left; cbn in Hr |- *; tauto).
  assert (B : rej (primary_of nd (expression_fuel nd n)) (x ++ w ++ rest) true).
  { unfold primary_of. apply r_name. apply r_or_commit. apply r_or.
    - pose proof (@r_before_bool nd H (expression_fuel nd n) [] x w rest ws_nil Hx Hw F) as K. cbn [app] in K. now rewrite <- app_assoc in K.
    - unfold bool_literal. apply r_name. change (x ++ w ++ rest) with ([] ++ (x ++ w ++ rest)). apply r_spaced; [apply ws_nil|now apply solid_no_ws, word_solid|]. apply r_map_panic.
      rewrite Ex. cbn [app]. apply r_or; [eapply r_attempt, r_tag; discriminate|]. now apply r_false_tag. }
  cbn [levp]. do 4 (apply r_name, r_chain_left1). exact B.
Qed.
Print Assumptions C85_names_with_f_rejected.
Theorem C85_names_refuted : exists x, word x /\ ~ In x [bs "true"; bs "false"] /\ forall nd, ascii_class nd -> exists err, parse (expression nd) x = Failure err true.
Proof.
  assert (W : word (bs "foo")) by (eexists _, _; split; [reflexivity|]; split; [now apply start_iff|]; repeat (apply Forall_cons; [now apply ichar_iff|]); apply Forall_nil).
  exists (bs "foo"). split; [exact W|]. split; [intros [E|[E|[]]]; discriminate|]. intros nd H.
  destruct (@C85_names_with_f_rejected nd (bs "foo") (chr "o") (bs "o") [] [] H W eq_refl ltac:(discriminate) ws_nil I) as [err E]. now exists err.
Qed.
Print Assumptions C85_names_refuted.
(** A name that starts with true is cut in two. *)
Example C85_example :
  parse (expression nd0) (bs "truck") = Success (ESymbol (bs "truck")) 5 /\ parse (expression nd0) (bs "trueish") = Success (EBool true) 4 /\
  is_fail (parse (lines nd0) (bs "x = trueish;")) = true /\ is_fail (parse (lines nd0) (bs "foo = 1; x = foo + 1;")) = true /\
  parse (lines nd0) (bs "foo = 1; x = foo(1) + 1;") =
    Success [EAssign (bs "foo") (EInt 1); EAssign (bs "x") (EBin OAdd (ECall (bs "foo") [EInt 1]) (EInt 1))] 24.
Proof. repeat split; vm_compute; reflexivity. Qed.

(** ** C86 *)
(** Should be: keywords are whole words; a longer word that starts with a keyword is a name. *)
Theorem C86_whole_words_refuted : exists s es es', es <> es' /\ stms false es s /\ In (EAssign (bs "elsewhere") (EInt 2)) es /\
  forall nd, ascii_class nd -> parse (lines nd) s = Success es' (length s).
Proof.
  assert (L : forall t w, ws w -> lx t (t ++ w)) by (intros t w Hw; now exists w).
  assert (W1 : ws (bs " ")) by (constructor; [cbn; lia|constructor]). pose proof ws_nil as W0.
  assert (Wd : forall c t, letter_ c -> forallb ident_char t = true -> word (c :: t)).
  { intros c t Hc Ht. exists c, t. repeat split; [exact Hc|]. apply Forall_forall. intros y Hy. rewrite forallb_forall in Ht. now apply ichar_iff, Ht. }
  assert (Up : forall st e s, lev st 0 e s -> lev st 4 e s) by (intros st e s H; do 4 (apply l_up; [|lia]); exact H).
  assert (I3 : forall st d w, digit d -> ws w -> lev st 4 (EInt (Z.of_N (d - 48))) ([d] ++ w)).
  { intros st d w Hd Hw. apply Up. apply l_int with (t := [d]); [|now apply L]. exists [d]. repeat split; [constructor; [exact Hd|constructor]|discriminate|now left|lia|unfold digit in Hd; lia]. }
  assert (Sx : forall st, lev st 4 (ESymbol (bs "x")) (bs "x")).
  { intros st. apply Up, l_sym; [apply Wd; [unfold letter_; cbn; lia|reflexivity]| |apply (L (bs "x") [] W0)]. intros _. split; intros [t E]; discriminate. }
  assert (A : forall st, stm st false (EAssign (bs "a") (EInt 1)) (bs "a " ++ bs "= " ++ bs "1" ++ bs "; ")).
  { intros st. apply s_assign; [apply Wd; [unfold letter_; cbn; lia|reflexivity]|apply (L (bs "a") (bs " ") W1)|apply (L (bs "=") (bs " ") W1)|apply (I3 st 49%N []); [unfold digit; lia|exact W0]|apply (L (bs ";") (bs " ") W1)]. }
  assert (B : forall st c y, letter_ c -> forallb ident_char y = true -> stm st false (EAssign (c :: y) (EInt 2)) ((c :: y ++ bs " ") ++ bs "= " ++ bs "2" ++ bs ";")).
  { intros st c y Hc Hy. apply s_assign; [now apply Wd|apply (L (c :: y) (bs " ") W1)|apply (L (bs "=") (bs " ") W1)|apply (I3 st 50%N []); [unfold digit; lia|exact W0]|apply (L (bs ";") [] W0)]. }
  exists (bs "if (x) a = 1; elsewhere = 2;"), [EIf (ESymbol (bs "x")) (EAssign (bs "a") (EInt 1)) None; EAssign (bs "elsewhere") (EInt 2)],
    [EIf (ESymbol (bs "x")) (EAssign (bs "a") (EInt 1)) (Some (EAssign (bs "where") (EInt 2)))].
  split; [discriminate|]. split; [|split; [right; now left|]].
  - change (bs "if (x) a = 1; elsewhere = 2;") with ((bs "if " ++ bs "(" ++ bs "x" ++ bs ") " ++ (bs "a " ++ bs "= " ++ bs "1" ++ bs "; ")) ++ ((chr "e" :: bs "lsewhere" ++ bs " ") ++ bs "= " ++ bs "2" ++ bs ";") ++ []).
    apply ss_cons with (op := true); [|discriminate|apply ss_cons with (op := false); [|discriminate|apply ss_nil]].
    + apply s_if with (op := false); [apply (L (bs "if") (bs " ") W1)|apply (L (bs "(") [] W0)|apply Sx|apply (L (bs ")") (bs " ") W1)|apply A].
    + apply B; [unfold letter_; cbn; lia|reflexivity].
  - intros nd H. apply (@C83_lines_complete nd _ (bs "if (x) a = 1; elsewhere = 2;") []); [exact H| |discriminate|exact W0].
    change (bs "if (x) a = 1; elsewhere = 2;") with ((bs "if " ++ bs "(" ++ bs "x" ++ bs ") " ++ (bs "a " ++ bs "= " ++ bs "1" ++ bs "; ") ++ bs "else" ++ ((chr "w" :: bs "here" ++ bs " ") ++ bs "= " ++ bs "2" ++ bs ";")) ++ []).
    apply ss_cons with (op := false); [|discriminate|apply ss_nil].
    apply s_ifelse with (op := false); [apply (L (bs "if") (bs " ") W1)|apply (L (bs "(") [] W0)|apply Sx|apply (L (bs ")") (bs " ") W1)|apply A|reflexivity|apply (L (bs "else") [] W0)|].
    apply B; [unfold letter_; cbn; lia|reflexivity].
Qed.
Print Assumptions C86_whole_words_refuted.
(** Names that start with another statement keyword are taken whole at the start of a statement. *)
Theorem C86_whole_words_partial : forall nd x z, ascii_class nd -> word x -> (0 <= z <= 9)%Z ->
  parse (lines nd) (x ++ bs "=" ++ [Z.to_N (z + 48)] ++ bs ";") = Success [EAssign x (EInt z)] (length x + 3).
Proof.
  intros nd x z H Hx Hz. assert (L : forall t, lx t t) by (intros t; exists []; split; [now rewrite app_nil_r|apply ws_nil]).
  pose proof (@C83_lines_complete nd [EAssign x (EInt z)] ((x ++ bs "=" ++ [Z.to_N (z + 48)] ++ bs ";") ++ []) [] H) as K. cbn [app] in K. rewrite app_nil_r in K.
  replace (length x + 3) with (length (x ++ bs "=" ++ [Z.to_N (z + 48)] ++ bs ";")) by (rewrite app_length; reflexivity). apply K; [|discriminate|apply ws_nil].
  rewrite <- (app_nil_r (x ++ bs "=" ++ Z.to_N (z + 48) :: bs ";")). apply ss_cons with (op := false); [|discriminate|apply ss_nil].
  apply (@s_assign true x (EInt z) x (bs "=") [Z.to_N (z + 48)] (bs ";")); auto. do 4 (apply l_up; [|lia]). apply l_int with (t := [Z.to_N (z + 48)]); [|apply L].
  assert (D : digit (Z.to_N (z + 48))) by (unfold digit; lia). exists [Z.to_N (z + 48)]. repeat split; [constructor; [exact D|constructor]|discriminate|left; split; [reflexivity|unfold dec_value; cbn; lia]|lia|lia].
Qed.
Print Assumptions C86_whole_words_partial.
Example C86_example :
  parse (lines nd0) (bs "iffy=1;") = Success [EAssign (bs "iffy") (EInt 1)] 7 /\ parse (lines nd0) (bs "if=1;") = Success [EAssign (bs "if") (EInt 1)] 5 /\
  parse (program nd0) (bs "fnmain(){}") = Success (EProgram [EFun (bs "main") [] (EBlock [])]) 10 /\
  parse (program nd0) (bs "globalx=1;") = Success (EProgram [EGlobal (bs "x") (EInt 1)]) 10.
Proof. repeat split; vm_compute; reflexivity. Qed.

(** ** C87 *)
(** How x o1 y o2 z is read, for operands without operators outside of parentheses. *)
Theorem C87_two_operators : forall nd o1 o2 x y z sx sy sz t1 t2 rest, ascii_class nd -> lev true 0 x sx -> lev true 0 y sy -> lev true 0 z sz ->
  lx (op_text o1) t1 -> lx (op_text o2) t2 -> match rest with [] => True | c :: _ => In c (bs ")],;") end ->
  exists n, parse (expression nd) (sx ++ t1 ++ sy ++ t2 ++ sz ++ rest) =
    Success (if op_level o2 <? op_level o1 then EBin o1 x (EBin o2 y z) else EBin o2 (EBin o1 x y) z) n.
Proof.
  intros nd o1 o2 x y z sx sy sz t1 t2 rest H Gx Gy Gz T1 T2 Hr.
  assert (Up : forall j k e s, j <= k -> k <= 4 -> lev true j e s -> lev true k e s).
  { intros j k e s Hj Hk G. induction Hj as [|k Hj IH]; [exact G|]. apply l_up; [apply IH|]; lia. }
  assert (Lo : forall o, op_level o <= 3) by (intros []; cbn; lia).
  destruct (Nat.ltb_spec (op_level o2) (op_level o1)) as [C|C].
  - assert (G : lev true 4 (EBin o1 x (EBin o2 y z)) (sx ++ t1 ++ sy ++ t2 ++ sz)).
    { apply (Up (S (op_level o1))); [specialize (Lo o1); lia|lia|]. apply l_bin; [apply (Up 0); [lia|specialize (Lo o1); lia|exact Gx]|reflexivity|exact T1|].
      apply (Up (S (op_level o2))); [lia|specialize (Lo o1); lia|]. apply l_bin; [apply (Up 0); [lia|specialize (Lo o2); lia|exact Gy]|reflexivity|exact T2|apply (Up 0); [lia|specialize (Lo o2); lia|exact Gz]]. }
    destruct (@C83_expression_complete nd _ _ rest H G Hr) as (n & E & _). exists n. rewrite <- !app_assoc in E. exact E.
  - assert (G : lev true 4 (EBin o2 (EBin o1 x y) z) ((sx ++ t1 ++ sy) ++ t2 ++ sz)).
    { apply (Up (S (op_level o2))); [specialize (Lo o2); lia|lia|]. apply l_bin; [|reflexivity|exact T2|apply (Up 0); [lia|specialize (Lo o2); lia|exact Gz]].
      apply (Up (S (op_level o1))); [lia|specialize (Lo o2); lia|]. apply l_bin; [apply (Up 0); [lia|specialize (Lo o1); lia|exact Gx]|reflexivity|exact T1|apply (Up 0); [lia|specialize (Lo o1); lia|exact Gy]]. }
    destruct (@C83_expression_complete nd _ _ rest H G Hr) as (n & E & _). exists n. rewrite <- !app_assoc in E. exact E.
Qed.
Print Assumptions C87_two_operators.
(** The usual convention (C, Rust): * / %, then + -, then comparisons, then && and then ||, each associating to the left. *)
Definition usual (o : op) : nat :=
  match o with OMul | ODiv | OMod => 0 | OAdd | OSub => 1 | OLe | OGe | OLt | OGt | OEq | ONe => 2 | OAnd => 3 | OOr => 4 end.
Definition usual_reading (o1 o2 : op) (x y z : expr) : expr := if usual o2 <? usual o1 then EBin o1 x (EBin o2 y z) else EBin o2 (EBin o1 x y) z.
Theorem C87_usual_precedence_refuted :
  (exists o1 o2, usual o2 < usual o1 /\ forall nd x y z sx sy sz t1 t2, ascii_class nd -> lev true 0 x sx -> lev true 0 y sy -> lev true 0 z sz -> lx (op_text o1) t1 -> lx (op_text o2) t2 ->
     exists n, parse (expression nd) (sx ++ t1 ++ sy ++ t2 ++ sz) = Success (EBin o2 (EBin o1 x y) z) n) /\
  (exists o1 o2, usual o2 = usual o1 /\ forall nd x y z sx sy sz t1 t2, ascii_class nd -> lev true 0 x sx -> lev true 0 y sy -> lev true 0 z sz -> lx (op_text o1) t1 -> lx (op_text o2) t2 ->
     exists n, parse (expression nd) (sx ++ t1 ++ sy ++ t2 ++ sz) = Success (EBin o1 x (EBin o2 y z)) n).
Proof.
  split.
  - exists OAnd, OLt. split; [cbn; lia|]. intros nd x y z sx sy sz t1 t2 H Gx Gy Gz T1 T2. pose proof (@C87_two_operators nd OAnd OLt x y z sx sy sz t1 t2 [] H Gx Gy Gz T1 T2 I) as K. now rewrite app_nil_r in K.
  - exists OMod, OMul. split; [reflexivity|]. intros nd x y z sx sy sz t1 t2 H Gx Gy Gz T1 T2. pose proof (@C87_two_operators nd OMod OMul x y z sx sy sz t1 t2 [] H Gx Gy Gz T1 T2 I) as K. now rewrite app_nil_r in K.
Qed.
Print Assumptions C87_usual_precedence_refuted.
(** The usual reading holds exactly for these pairs of operators. *)
Theorem C87_usual_precedence_partial : forall o1 o2 x y z, (if op_level o2 <? op_level o1 then EBin o1 x (EBin o2 y z) else EBin o2 (EBin o1 x y) z) = usual_reading o1 o2 x y z <->
  ~ (In o1 [OAnd; OOr] /\ In o2 [OLe; OGe; OLt; OGt; OEq; ONe]) /\ ~ (o1 = OOr /\ o2 = OAnd) /\ ~ (o1 = OMod /\ In o2 [OMul; ODiv]).
Proof.
  intros o1 o2 x y z. assert (N : forall a b, EBin a x (EBin b y z) <> EBin b (EBin a x y) z).
  { intros a b E. injection E as _ Ex _. revert Ex. clear. revert a y. intros a y E. assert (S : forall e : expr, forall a y, e <> EBin a e y). { clear. fix IH 1. intros e a y E. destruct e; try discriminate. injection E as -> E ->. now apply IH in E. } now apply S in E. }
  unfold usual_reading. destruct o1, o2; cbn; (split; [intros E|intros E]); try reflexivity; try (exfalso; first [apply (N _ _ E)|symmetry in E; apply (N _ _ E)]); try tauto; try (repeat split; intuition discriminate).
Qed.
Print Assumptions C87_usual_precedence_partial.
(** Apart from these pairs the parser gives the usual reading. *)
Theorem C87_usual_reading : forall nd o1 o2 x y z sx sy sz t1 t2 rest, ascii_class nd -> lev true 0 x sx -> lev true 0 y sy -> lev true 0 z sz ->
  lx (op_text o1) t1 -> lx (op_text o2) t2 -> match rest with [] => True | c :: _ => In c (bs ")],;") end ->
  (exists n, parse (expression nd) (sx ++ t1 ++ sy ++ t2 ++ sz ++ rest) = Success (usual_reading o1 o2 x y z) n) <->
  ~ (In o1 [OAnd; OOr] /\ In o2 [OLe; OGe; OLt; OGt; OEq; ONe]) /\ ~ (o1 = OOr /\ o2 = OAnd) /\ ~ (o1 = OMod /\ In o2 [OMul; ODiv]).
Proof.
  intros nd o1 o2 x y z sx sy sz t1 t2 rest H Gx Gy Gz T1 T2 Hr. destruct (@C87_two_operators nd o1 o2 x y z sx sy sz t1 t2 rest H Gx Gy Gz T1 T2 Hr) as [n E].
  rewrite <- (C87_usual_precedence_partial o1 o2 x y z). split.
  - intros [m E']. rewrite E in E'. now injection E'.
  - intros K. exists n. now rewrite E, K.
Qed.
Print Assumptions C87_usual_reading.
(** 1 < 2 && 3 < 4 is read as ((1 < 2) && 3) < 4, which panics. *)
Example C87_example :
  parse (expression nd0) (bs "a < 1 && c < 2") = Success (EBin OLt (EBin OAnd (EBin OLt (ESymbol (bs "a")) (EInt 1)) (ESymbol (bs "c"))) (EInt 2)) 14 /\
  (exists e n s, parse (program nd0) (bs "fn main() { println(1 < 2 && 3 < 4); }") = Success e n /\ call_main true 50 e = Pan s) /\
  parse (expression nd0) (bs "2 % 3 * 4") = Success (EBin OMod (EInt 2) (EBin OMul (EInt 3) (EInt 4))) 9 /\
  parse (expression nd0) (bs "7 - 2 - 1") = Success (EBin OSub (EBin OSub (EInt 7) (EInt 2)) (EInt 1)) 9.
Proof.
  split; [vm_compute; reflexivity|]. split; [|split; vm_compute; reflexivity]. eexists _, _, _. split; [vm_compute; reflexivity|]. vm_compute. reflexivity.
Qed.
