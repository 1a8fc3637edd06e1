(** C127: what the grammars of the repository depend on. *)
From Verif Require Import Hocon HoconParse HoconBuilt.
From Verif Require Import Base Core Comb Closure Shift Text Json JsonFacts Calc CalcFacts Uri Cron ToysObject ToysParse ToysParseSound Bench.
Set Implicit Arguments.
Local Open Scope string_scope.
Local Open Scope nat_scope.
Local Open Scope list_scope.

(** ** The grammars are built from the parsers of the library *)
Ltac hd t := match t with ?f _ => hd f | _ => t end.
Ltac b1 := match goal with
  | H : built _ _ _ ?p |- built _ _ _ ?p => exact H
  | |- built _ _ _ (p_diverge) => apply B_diverge
  | |- built _ _ _ (p_successful _) => apply B_successful
  | |- built _ _ _ (p_filter _ _) => apply B_filter
  | |- built _ _ _ (p_flat_map _ _) => apply B_flat_map; [|intros ?]
  | |- built _ _ _ (p_map _ _) => apply B_map
  | |- built _ _ _ (p_map_panic _ _) => apply B_map_panic; [reflexivity|]
  | |- built _ _ _ (p_exists _) => apply B_exists
  | |- built _ _ _ (p_not _) => apply B_not
  | |- built _ _ _ (p_or _ _) => apply B_or
  | |- built _ _ _ (p_and _ _) => apply B_and
  | |- built _ _ _ (p_attempt _) => apply B_attempt
  | |- built _ _ _ (p_rest_left1 _ _ _) => apply B_rest_left1
  | |- built _ _ _ (p_repeat_sep _ _ (Some _)) => apply B_repeat_sep
  | |- built _ _ _ (p_repeat_sep _ _ None) => apply B_repeat_nosep
  | |- built _ _ _ (p_seq _ _) => apply B_seq
  | |- built _ _ _ (p_tag_by _ _) => apply B_tag
  | |- built _ _ _ (p_elm_pred_ref _) => apply B_elm_pred_ref
  | |- built _ _ _ (p_elm_ref_of _) => apply B_elm_ref_of
  | |- built _ _ _ (p_none_ref_of _) => apply B_none_ref_of
  | |- built _ _ _ (p_collect _) => apply B_collect
  | |- built _ _ _ (p_map_res _ _) => apply B_map_res
  | |- built _ _ _ (p_map_opt _ _) => apply B_map_opt
  | |- built _ _ _ (p_discard _) => apply B_discard
  | |- built _ _ _ (p_lazy _) => apply B_lazy
  | |- built _ _ _ (p_log_map _ _) => apply B_log_map
  | |- built _ _ _ (p_name _ _) => apply B_name
  | |- built _ _ _ (p_end) => apply B_end
  | |- built _ _ _ (p_skip_left _ _) => apply B_skip_left
  | |- built _ _ _ (p_skip_right _ _) => apply B_skip_right
  | |- built _ _ _ (p_regex _) => apply B_leaf; constructor
  | |- built _ _ _ (let '(_, _) := ?x in _) => destruct x
  | |- built _ _ _ (if ?b then _ else _) => destruct b
  | |- built _ _ _ ?p => let h := hd p in unfold h; cbv beta zeta
  end.
Ltac bb := repeat b1.
(** The only parser that is not of the library: a regular expression at the position. *)
Inductive regex_leaf : forall A, parser N A -> Prop :=
| RL : forall f, regex_leaf (p_regex f).
Lemma regex_shiftable : forall A (p : parser N A), regex_leaf p -> shiftable p.
Proof. intros A p [f] k inp off Hk. unfold p_regex. rewrite (ps_input_shift inp off Hk). destruct (ps_input (skipn k inp) off) as [r|]; [|reflexivity]. now destruct (f r). Qed.
Notation bg := (built regex_leaf false true).
Lemma g_json : forall F (f : list N -> F + unit) u n, bg (value_fuel f u n).
Proof. intros F f u n. induction n as [|n IH]; cbn [value_fuel]; bb. Qed.
Lemma g_json_fuel : forall F (f : list N -> F + unit) u n, bg (json_fuel f u n).
Proof. intros F f u n. pose proof (g_json f u n). unfold json_fuel. bb. Qed.
Lemma g_bench_fuel : forall F (f : list N -> F + unit) lossy u n, bg (bench_fuel f lossy u n).
Proof. intros F f lossy u n. assert (bg (b_value f lossy u n)) by (induction n as [|n IH]; cbn [b_value]; bb). unfold bench_fuel. bb. Qed.
Lemma g_calc_fuel : forall D nd (dec : list N -> D + unit) n, bg (calculator_fuel nd dec n).
Proof. intros D nd dec n. assert (bg (primary_fuel nd dec n)) by (induction n as [|n IH]; cbn [primary_fuel]; bb). unfold calculator_fuel. bb. Qed.
Lemma g_cron : bg (p_skip_right instruction p_end).
Proof. bb. Qed.
Lemma g_uri : forall v6, bg (uri_p v6).
Proof. intros v6. bb. Qed.
(** toys: the recursion through lazy is cut at the length of the text; [expression] and [line] stand in the grammar as leaves. *)
Inductive toys_leaf (nd : N -> bool) : forall A, parser N A -> Prop :=
| TL_regex : forall f, toys_leaf nd (p_regex f)
| TL_expression : toys_leaf nd (expression nd)
| TL_line : toys_leaf nd (line nd).
Inductive expr_leaf (nd : N -> bool) : forall A, parser N A -> Prop :=
| EL_regex : forall f, expr_leaf nd (p_regex f)
| EL_expression : expr_leaf nd (expression nd).
Lemma g_expression : forall nd n, bg (expression_fuel nd n).
Proof. intros nd n. induction n as [|n IH]; cbn [expression_fuel]; bb. Qed.
Lemma fuel_shiftable : forall A (f : nat -> parser N A), (forall inp off fuel, length inp < fuel -> f fuel inp off = f (S (length inp)) inp off) ->
  (forall n, shiftable (f n)) -> shiftable (fun inp off => f (S (length inp)) inp off).
Proof.
  intros A f E H k inp off Hk. rewrite (H (S (length inp)) k inp off Hk). rewrite E; [reflexivity|]. rewrite skipn_length. lia.
Qed.
Lemma expression_shiftable : forall nd, shiftable (expression nd).
Proof.
  intros nd. apply (@fuel_shiftable _ (expression_fuel nd)); [intros; rewrite expression_enough by assumption; reflexivity|].
  intros n. eapply built_shiftable; [|apply g_expression]. intros A p. apply regex_shiftable.
Qed.
Lemma expr_leaf_shiftable : forall nd A (p : parser N A), expr_leaf nd p -> shiftable p.
Proof. intros nd A p [f|]; [now apply regex_shiftable|apply expression_shiftable]. Qed.
Lemma g_line : forall nd n, built (expr_leaf nd) false true (line_fuel nd n).
Proof.
  intros nd n. assert (E : built (expr_leaf nd) false true (expression nd)) by (apply B_leaf; constructor).
  induction n as [|n IH]; cbn [line_fuel]; bb.
Qed.
(** The regex class \d is any class of characters that has the digits of ASCII and no other character of ASCII. *)
Definition digits_of_ascii (nd : N -> bool) : Prop := forall x, (x < 128)%N -> nd x = true <-> (48 <= x <= 57)%N.
Lemma line_shiftable : forall nd, digits_of_ascii nd -> shiftable (line nd).
Proof.
  intros nd Hnd. apply (@fuel_shiftable _ (line_fuel nd)); [intros inp off fuel H; exact (@line_enough nd Hnd inp off fuel H)|].
  intros n. eapply built_shiftable; [|apply g_line]. intros A p. apply expr_leaf_shiftable.
Qed.
Lemma toys_leaf_shiftable : forall nd, digits_of_ascii nd -> forall A (p : parser N A), toys_leaf nd p -> shiftable p.
Proof. intros nd Hnd A p [f| |]; [now apply regex_shiftable|apply expression_shiftable|now apply line_shiftable]. Qed.
Lemma g_program : forall nd, built (toys_leaf nd) false true (program nd) /\ built (toys_leaf nd) false true (lines nd).
Proof.
  intros nd. assert (E : built (toys_leaf nd) false true (expression nd)) by (apply B_leaf; constructor).
  assert (L : built (toys_leaf nd) false true (line nd)) by (apply B_leaf; constructor). split; bb.
Qed.

(** ** C127: a grammar depends only on the text from its position on *)
(** The same answer; errors name positions, so that of a failure only whether it is committed is compared. *)
Definition same {A} (x y : outcome N A) : Prop :=
  match x, y with
  | Success v n, Success w m => v = w /\ n = m
  | Failure _ c, Failure _ d => c = d
  | Panic, Panic => True
  | Diverge, Diverge => True
  | _, _ => False
  end.
Definition anywhere {A} (p : parser N A) : Prop := forall pre t off, same (p (pre ++ t) (length pre + off)) (p t off).
Lemma shiftable_anywhere : forall A (p : parser N A), shiftable p -> anywhere p.
Proof.
  intros A p H pre t off. specialize (H (length pre) (pre ++ t) off). rewrite app_length in H. specialize (H ltac:(lia)).
  rewrite skipn_app, skipn_all, Nat.sub_diag in H. cbn [skipn app] in H.
  destruct (p (pre ++ t) (length pre + off)), (p t off); cbn in *; try discriminate; try exact I; injection H; auto.
Qed.
Lemma bg_anywhere : forall A (p : parser N A), bg p -> anywhere p.
Proof. intros A p H. apply shiftable_anywhere. eapply built_shiftable; [|exact H]. intros B q. apply regex_shiftable. Qed.
Lemma bg_fuel_anywhere : forall A (f : nat -> parser N A), (forall inp off fuel, length inp < fuel -> f fuel inp off = f (S (length inp)) inp off) ->
  (forall n, bg (f n)) -> anywhere (fun inp off => f (S (length inp)) inp off).
Proof.
  intros A f E H. apply shiftable_anywhere, (@fuel_shiftable _ (f)); [exact E|]. intros n. eapply built_shiftable; [|apply H]. intros B q. apply regex_shiftable.
Qed.
Theorem C127_json : forall F (f64_parse : list N -> F + unit) utf8, anywhere (json_p f64_parse utf8).
Proof. intros F f u. apply (@bg_fuel_anywhere _ (json_fuel f u)); [intros inp off fuel H; exact (@json_fuel_enough F f u inp off fuel H)|apply g_json_fuel]. Qed.
(** With any bound of the recursion depth. *)
Theorem C127_bench : forall F (f64_parse : list N -> F + unit) lossy bytes n, anywhere (bench_fuel f64_parse lossy bytes n).
Proof. intros F f l u n. apply bg_anywhere, g_bench_fuel. Qed.
Theorem C127_calculator : forall D nd (dec : list N -> D + unit), anywhere (calculator nd dec).
Proof. intros D nd dec. apply (@bg_fuel_anywhere _ (calculator_fuel nd dec)); [intros inp off fuel H; exact (@calc_fuel_enough D nd dec inp off fuel H)|apply g_calc_fuel]. Qed.
Theorem C127_cron : anywhere (p_skip_right instruction p_end).
Proof. apply bg_anywhere, g_cron. Qed.
Theorem C127_uri : forall v6, anywhere (uri_p v6) /\ anywhere (absolute_uri v6).
Proof. intros v6. split; apply bg_anywhere; bb. Qed.
Theorem C127_toys : forall nd, digits_of_ascii nd -> anywhere (program nd) /\ anywhere (lines nd) /\ anywhere (line nd) /\ anywhere (expression nd).
Proof.
  intros nd Hnd. destruct (g_program nd) as [H1 H2]. repeat split; apply shiftable_anywhere; [eapply built_shiftable; [|exact H1]|eapply built_shiftable; [|exact H2]|now apply line_shiftable|apply expression_shiftable];
    intros A p; now apply toys_leaf_shiftable.
Qed.
Theorem C127_hocon : forall D (dec : list N -> option D), anywhere (hocon_p dec).
Proof.
  intros D dec. apply shiftable_anywhere, (@fuel_shiftable _ (hocon_fuel dec)); [intros inp off fuel H; exact (@hocon_fuel_enough D dec inp off fuel H)|].
  intros n. eapply built_shiftable; [|apply b_hocon]. intros A p [].
Qed.
(** The texts before the position matter to the offsets, which no grammar uses. *)
Example C127_offset : ~ anywhere (p_last_offset (p_elm (chr "a"))).
Proof. intros H. specialize (H (bs "b") (bs "a") 0). vm_compute in H. destruct H as [H _]. discriminate. Qed.
Definition ascii_digit (x : N) : bool := ((48 <=? x) && (x <=? 57))%N.
Example C127_case : digits_of_ascii ascii_digit /\
  (exists v n, uri_p (fun _ => inr tt) (bs "x y http://a/b?c#d") 4 = Success v n /\ uri_p (fun _ => inr tt) (bs "http://a/b?c#d") 0 = Success v n) /\
  (exists v n, expression ascii_digit (bs "(1+) 2*3") 4 = Success v n /\ expression ascii_digit (bs " 2*3") 0 = Success v n).
Proof.
  split; [|split; eexists _, _; split; vm_compute; reflexivity].
  intros x _. unfold ascii_digit. rewrite Bool.andb_true_iff, !N.leb_le. tauto.
Qed.
Print Assumptions C127_json.
Print Assumptions C127_bench.
Print Assumptions C127_calculator.
Print Assumptions C127_cron.
Print Assumptions C127_uri.
Print Assumptions C127_toys.
Print Assumptions C127_hocon.
