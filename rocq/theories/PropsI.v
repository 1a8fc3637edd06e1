(** C78-C80: the example calculator. *)
From Verif Require Import Base Core Comb Closure Text Hoare Runs Agree Calc CalcSpec CalcFacts.
Set Implicit Arguments.
Local Open Scope string_scope.
Local Open Scope nat_scope.
Local Open Scope list_scope.

(** What is assumed of the regex class \d and of Decimal::from_str (external crates). *)
Definition ascii_class (nd : N -> bool) : Prop := forall x, (x < 128)%N -> (nd x = true <-> digit x).
Definition ascii_only {D} (dec : list N -> D + unit) : Prop := forall s x d, In x s -> dec s = inl d -> (x < 128)%N.

Definition is_fail {A} (o : outcome N A) : bool := match o with Failure _ _ => true | _ => false end.
Definition is_ok {A} (o : outcome N A) : bool := match o with Success _ _ => true | _ => false end.

(** An instance for the examples: whole numbers only. *)
Definition nd0 : N -> bool := is_ascii_digit.
Definition dec0 (s : list N) : Z + unit := if forallb is_ascii_digit s then inl (Z.of_N (dec_value s)) else inr tt.
Lemma nd0_ok : ascii_class nd0.
Proof. intros x _. unfold nd0, is_ascii_digit, in_range, digit. rewrite andb_true_iff, !N.leb_le. reflexivity. Qed.
Lemma dec0_ok : ascii_only dec0.
Proof.
  intros s x d Hx H. unfold dec0 in H. destruct (forallb is_ascii_digit s) eqn:E; [|discriminate].
  rewrite forallb_forall in E. specialize (E x Hx). apply andb_true_iff in E. destruct E as [_ E]. apply N.leb_le in E. lia.
Qed.

(** ** C78 *)
(** A text is accepted exactly if the whole of it is an expression, and the tree is the one of the grammar: "*" and "/" bind
    tighter than "+" and "-", operators of one level associate to the left, a sign binds tightest. *)
Theorem C78_grammar : forall D nd (dec : list N -> D + unit) s e n, ascii_class nd -> ascii_only dec ->
  (parse (calculator nd dec) s = Success e n <-> n = length s /\ g_expr dec e s).
Proof.
  intros D nd dec s e n H1 H2. split.
  - intros E. pose proof (@h_calculator D nd dec H1 H2 s) as H. unfold parse in E. now rewrite E in H.
  - intros [-> H]. now apply calc_complete.
Qed.
Print Assumptions C78_grammar.
(** Every run returns: no panic, no unbounded recursion. *)
Theorem C78_returns : forall D nd (dec : list N -> D + unit) s, ascii_class nd -> ascii_only dec ->
  parse (calculator nd dec) s <> Panic /\ parse (calculator nd dec) s <> Diverge.
Proof.
  intros D nd dec s H1 H2. pose proof (@h_calculator D nd dec H1 H2 s) as H. unfold parse. destruct (calculator nd dec s 0); split; congruence || destruct H.
Qed.
Print Assumptions C78_returns.
(** More recursion depth than the length of the input allows changes nothing. *)
Theorem C78_depth : forall D nd (dec : list N -> D + unit) s fuel, ascii_class nd -> ascii_only dec -> length s < fuel ->
  parse (calculator_fuel nd dec fuel) s = parse (calculator nd dec) s.
Proof. intros D nd dec s fuel H1 H2 H. unfold parse. now apply calc_fuel_enough. Qed.
Print Assumptions C78_depth.
(** The grammar gives one tree per text. *)
Theorem C78_unambiguous : forall D (dec : list N -> D + unit) s e e', ascii_only dec -> g_expr dec e s -> g_expr dec e' s -> e = e'.
Proof.
  intros D dec s e e' H2 H H'. pose proof (@calc_complete D nd0 dec nd0_ok _ _ H) as E. pose proof (@calc_complete D nd0 dec nd0_ok _ _ H') as E'. congruence.
Qed.
Print Assumptions C78_unambiguous.

Example C78_example :
  parse (calculator nd0 dec0) (bs "8 - 3*2 - -(1+1)") =
    Success (CSub (CSub (CValue 8) (CMultiply (CValue 3) (CValue 2))) (CMinus (CParen (CAdd (CValue 1) (CValue 1)))))%Z 16 /\
  g_expr dec0 (CSub (CSub (CValue 8) (CMultiply (CValue 3) (CValue 2))) (CMinus (CParen (CAdd (CValue 1) (CValue 1)))))%Z (bs "8 - 3*2 - -(1+1)") /\
  is_fail (parse (calculator nd0 dec0) (bs "8 - ")) = true /\
  is_fail (parse (calculator nd0 dec0) (bs "8 8")) = true.
Proof.
  assert (P : parse (calculator nd0 dec0) (bs "8 - 3*2 - -(1+1)") =
    Success (CSub (CSub (CValue 8) (CMultiply (CValue 3) (CValue 2))) (CMinus (CParen (CAdd (CValue 1) (CValue 1)))))%Z 16) by (vm_compute; reflexivity).
  split; [exact P|]. split; [|split; vm_compute; reflexivity].
  apply (C78_grammar _ _ _ nd0_ok dec0_ok) in P. exact (proj2 P).
Qed.

(** ** C79 *)
(** White space is allowed around operators and parentheses, but not before a number at the start of the text or behind a
    sign, nor behind a number at the end of the text. *)
Theorem C79_layout_refuted : exists s a, cws a /\
  (exists e, parse (calculator nd0 dec0) s = Success e (length s)) /\
  is_fail (parse (calculator nd0 dec0) (a ++ s)) = true /\ is_fail (parse (calculator nd0 dec0) (s ++ a)) = true.
Proof.
  exists (bs "1"), (bs " "). split; [repeat constructor|]. split; [eexists; vm_compute; reflexivity|]. split; vm_compute; reflexivity.
Qed.
Print Assumptions C79_layout_refuted.
(** White space around a parenthesized expression is ignored. *)
Theorem C79_layout_partial : forall D nd (dec : list N -> D + unit) a b s e, ascii_class nd -> ascii_only dec -> cws a -> cws b ->
  g_expr dec e s -> parse (calculator nd dec) (a ++ bs "(" ++ s ++ bs ")" ++ b) = Success (CParen e) (length (a ++ bs "(" ++ s ++ bs ")" ++ b)).
Proof.
  intros D nd dec a b s e H1 H2 Ha Hb H. apply C78_grammar; [exact H1|exact H2|]. split; [reflexivity|]. apply ge_one, gt_one.
  apply (@gf_paren D dec a [] [] b e s); try assumption; constructor.
Qed.
Print Assumptions C79_layout_partial.
(** White space on either side of a binary operator is ignored. *)
Theorem C79_operator_layout : forall D nd (dec : list N -> D + unit) a b s t l r, ascii_class nd -> ascii_only dec -> cws a -> cws b ->
  g_expr dec l s -> g_term dec r t ->
  parse (calculator nd dec) (s ++ a ++ bs "+" ++ b ++ t) = Success (CAdd l r) (length (s ++ a ++ bs "+" ++ b ++ t)) /\
  parse (calculator nd dec) (s ++ a ++ bs "-" ++ b ++ t) = Success (CSub l r) (length (s ++ a ++ bs "-" ++ b ++ t)).
Proof.
  intros D nd dec a b s t l r H1 H2 Ha Hb Hl Hr. split; apply C78_grammar; try assumption; (split; [reflexivity|]); [now apply ge_add|now apply ge_sub].
Qed.
Print Assumptions C79_operator_layout.
Example C79_example :
  parse (calculator nd0 dec0) (bs "  ( 1 )  ") = Success (CParen (CValue 1%Z)) 9 /\
  parse (calculator nd0 dec0) (bs "(1)  +  2") = Success (CAdd (CParen (CValue 1)) (CValue 2))%Z 9 /\
  is_fail (parse (calculator nd0 dec0) (bs "- 1")) = true /\ is_ok (parse (calculator nd0 dec0) (bs "- (1)")) = true.
Proof. repeat split; vm_compute; reflexivity. Qed.

(** ** C80 *)
Section Value.
Variable D : Type.
Variable dec : list N -> D + unit.
Variables d_add d_sub d_mul d_div : D -> D -> option D.
Variable minus_one : D.
(** The value of a text, by the usual rules, without a tree.  None: an operation has no result. *)
Definition app2 (f : D -> D -> option D) (a b : option D) : option D :=
  match a, b with Some x, Some y => f x y | _, _ => None end.
Inductive v_factor : option D -> list N -> Prop :=
| vf_num : forall s d, c_number s -> dec s = inl d -> v_factor (Some d) s
| vf_plus : forall v s, v_factor v s -> v_factor v (bs "+" ++ s)
| vf_minus : forall v s, v_factor v s -> v_factor (app2 d_mul v (Some minus_one)) (bs "-" ++ s)
| vf_paren : forall a b c d v s, cws a -> cws b -> v_expr v s -> cws c -> cws d ->
    v_factor v (a ++ bs "(" ++ b ++ s ++ c ++ bs ")" ++ d)
with v_term : option D -> list N -> Prop :=
| vt_one : forall v s, v_factor v s -> v_term v s
| vt_mul : forall v w s a b t, v_term v s -> cws a -> cws b -> v_factor w t -> v_term (app2 d_mul v w) (s ++ a ++ bs "*" ++ b ++ t)
| vt_div : forall v w s a b t, v_term v s -> cws a -> cws b -> v_factor w t -> v_term (app2 d_div v w) (s ++ a ++ bs "/" ++ b ++ t)
with v_expr : option D -> list N -> Prop :=
| ve_one : forall v s, v_term v s -> v_expr v s
| ve_add : forall v w s a b t, v_expr v s -> cws a -> cws b -> v_term w t -> v_expr (app2 d_add v w) (s ++ a ++ bs "+" ++ b ++ t)
| ve_sub : forall v w s a b t, v_expr v s -> cws a -> cws b -> v_term w t -> v_expr (app2 d_sub v w) (s ++ a ++ bs "-" ++ b ++ t).
Scheme v_factor_mut := Induction for v_factor Sort Prop
  with v_term_mut := Induction for v_term Sort Prop
  with v_expr_mut := Induction for v_expr Sort Prop.
Combined Scheme val_ind3 from v_factor_mut, v_term_mut, v_expr_mut.
Notation ev := (c_eval d_add d_sub d_mul d_div minus_one).
Lemma bind2_app2 : forall a b f, bind2 a b f = app2 f a b.
Proof. intros [x|] [y|] f; reflexivity. Qed.
Lemma tree_value : (forall e s, g_factor dec e s -> v_factor (ev e) s) /\ (forall e s, g_term dec e s -> v_term (ev e) s) /\ (forall e s, g_expr dec e s -> v_expr (ev e) s).
Proof.
  apply (@calc_ind3 D dec (fun e s _ => v_factor (ev e) s) (fun e s _ => v_term (ev e) s) (fun e s _ => v_expr (ev e) s)); intros; cbn [c_eval];
    rewrite ?bind2_app2; now constructor.
Qed.
Lemma value_tree : (forall v s, v_factor v s -> exists e, g_factor dec e s /\ ev e = v) /\ (forall v s, v_term v s -> exists e, g_term dec e s /\ ev e = v) /\
  (forall v s, v_expr v s -> exists e, g_expr dec e s /\ ev e = v).
Proof.
  apply (@val_ind3 (fun v s _ => exists e, g_factor dec e s /\ ev e = v) (fun v s _ => exists e, g_term dec e s /\ ev e = v)
    (fun v s _ => exists e, g_expr dec e s /\ ev e = v)).
  - intros s d H1 H2. exists (CValue d). split; [now constructor|reflexivity].
  - intros v s _ (e & H & E). exists (CPlus e). split; [now constructor|exact E].
  - intros v s _ (e & H & E). exists (CMinus e). split; [now constructor|]. cbn. now rewrite E, bind2_app2.
  - intros a b c d v s Ha Hb _ (e & H & E) Hc Hd. exists (CParen e). split; [now constructor|exact E].
  - intros v s _ (e & H & E). exists e. split; [now constructor|exact E].
  - intros v w s a b t _ (e & H & E) Ha Hb _ (f & K & F). exists (CMultiply e f). split; [now constructor|]. cbn. now rewrite E, F, bind2_app2.
  - intros v w s a b t _ (e & H & E) Ha Hb _ (f & K & F). exists (CDivide e f). split; [now constructor|]. cbn. now rewrite E, F, bind2_app2.
  - intros v s _ (e & H & E). exists e. split; [now constructor|exact E].
  - intros v w s a b t _ (e & H & E) Ha Hb _ (f & K & F). exists (CAdd e f). split; [now constructor|]. cbn. now rewrite E, F, bind2_app2.
  - intros v w s a b t _ (e & H & E) Ha Hb _ (f & K & F). exists (CSub e f). split; [now constructor|]. cbn. now rewrite E, F, bind2_app2.
Qed.
End Value.

(** Parsing and evaluating a text gives the value of the text. *)
Theorem C80_value : forall D nd (dec : list N -> D + unit) d_add d_sub d_mul d_div minus_one s v, ascii_class nd -> ascii_only dec ->
  (v_expr dec d_add d_sub d_mul d_div minus_one v s <->
   exists e, parse (calculator nd dec) s = Success e (length s) /\ c_eval d_add d_sub d_mul d_div minus_one e = v).
Proof.
  intros D nd dec fa fs fm fd m1 s v H1 H2. split.
  - intros H. apply value_tree in H. destruct H as (e & H & E). exists e. split; [|exact E]. now apply C78_grammar.
  - intros (e & H & <-). apply C78_grammar in H; try assumption. now apply tree_value.
Qed.
Print Assumptions C80_value.
Definition z_op (f : Z -> Z -> Z) (a b : Z) : option Z := Some (f a b).
Definition z_div (a b : Z) : option Z := if (b =? 0)%Z then None else Some (a / b)%Z.
Example C80_example :
  v_expr dec0 (z_op Z.add) (z_op Z.sub) (z_op Z.mul) z_div (-1)%Z (Some 4%Z) (bs "8 - 3*2 - -(1+1)") /\
  v_expr dec0 (z_op Z.add) (z_op Z.sub) (z_op Z.mul) z_div (-1)%Z None (bs "1/0") /\
  v_expr dec0 (z_op Z.add) (z_op Z.sub) (z_op Z.mul) z_div (-1)%Z (Some 8%Z) (bs "1+2*3+1").
Proof.
  assert (G : forall s v, match parse (calculator nd0 dec0) s with Success e n => (n =? length s) = true /\ c_eval (z_op Z.add) (z_op Z.sub) (z_op Z.mul) z_div (-1)%Z e = v | _ => False end ->
    v_expr dec0 (z_op Z.add) (z_op Z.sub) (z_op Z.mul) z_div (-1)%Z v s).
  { intros s v H. apply (C80_value _ _ _ _ _ _ _ nd0_ok dec0_ok). destruct (parse (calculator nd0 dec0) s) as [e n| | |]; try contradiction.
    destruct H as [Hn Hv]. apply Nat.eqb_eq in Hn. subst n. now exists e. }
  repeat split; apply G; vm_compute; split; reflexivity.
Qed.
