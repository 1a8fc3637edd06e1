(** C132-C134: how deep the calls of the examples nest, and how many there are. *)
From Verif Require Import Base Core Comb Closure Hoare Text Json JsonSpec JsonFacts Calc CalcSpec CalcFacts Measure MeasureJson MeasureCalc MeasureCount PropsI.
Set Implicit Arguments.
Local Open Scope string_scope.
Local Open Scope nat_scope.
Local Open Scope list_scope.

(** ** C132 *)
(** The counting parser returns what the parser returns, and the nesting of its calls depends on the nesting of the brackets of the text
    alone, whatever the length of the text, and whether it is accepted or not. *)
Theorem C132_height : forall F (f64_parse : list N -> F + unit) utf8 inp,
  fst (mj_json f64_parse utf8 inp 0) = parse (json_p f64_parse utf8) inp /\
  hgt (snd (mj_json f64_parse utf8 inp 0)) <= 9 * nesting inp + 26.
Proof. intros F f64_parse utf8 inp. split; [apply er_json|apply json_height]. Qed.
Print Assumptions C132_height.
(** The nesting of the calls is at least that of the value read. *)
Theorem C132_depth : forall F (f64_parse : list N -> F + unit) utf8 inp v n,
  parse (json_p f64_parse utf8) inp = Success v n -> 8 * depth v + 2 <= hgt (snd (mj_json f64_parse utf8 inp 0)).
Proof. intros F f64_parse utf8 inp v n H. now apply json_deep with (n := n). Qed.
Print Assumptions C132_depth.
(** The nesting of the text, without the scan: a text in which every bracket outside of strings closes before the next one opens. *)
Theorem C132_flat : forall n, nesting (bs "[" ++ List.concat (repeat (bs "1,") n) ++ bs "1]") = 1.
Proof.
  intros n. assert (H : forall t, nest Out 1 (List.concat (repeat (bs "1,") n) ++ t) = nest Out 1 t) by (intros t; induction n as [|n IH]; [reflexivity|exact IH]).
  change (nest Out 1 (List.concat (repeat (bs "1,") n) ++ bs "1]") = 1). now rewrite H.
Qed.
Print Assumptions C132_flat.
(** An array of any number of elements is read with at most 35 nested calls. *)
Theorem C132_array : forall F (f64_parse : list N -> F + unit) utf8 n,
  hgt (snd (mj_json f64_parse utf8 (bs "[" ++ List.concat (repeat (bs "1,") n) ++ bs "1]") 0)) <= 35.
Proof. intros F f64_parse utf8 n. destruct (C132_height f64_parse utf8 (bs "[" ++ List.concat (repeat (bs "1,") n) ++ bs "1]")) as [_ H]. rewrite C132_flat in H. exact H. Qed.
Print Assumptions C132_array.
Definition any_number (s : list N) : list N + unit := inl s.
Example C132_example :
  nesting (bs "[[1],{" ++ [34%N] ++ bs "[[[" ++ [34%N] ++ bs ":2}]") = 2 /\
  hgt (snd (mj_json any_number true (bs "[1]") 0)) = 27 /\ hgt (snd (mj_json any_number true (bs "[1,1,1,1]") 0)) = 27 /\
  hgt (snd (mj_json any_number true (bs "[[1],1,1,1]") 0)) = 35.
Proof. vm_compute. repeat split. Qed.

(** ** C133 *)
(** A sum without parentheses. *)
Definition flat_sum (n : nat) : list N := bs "1" ++ List.concat (repeat (bs "+1") n).
Definition no_parens (s : list N) : Prop := Forall (fun x => x <> chr "(" /\ x <> chr ")") s.
Lemma flat_sum_parens : forall n, no_parens (flat_sum n).
Proof.
  intros n. assert (H : Forall (fun x => x <> chr "(" /\ x <> chr ")") (List.concat (repeat (bs "+1") n))) by (induction n as [|n IH]; [constructor|repeat (constructor; [split; discriminate|]); exact IH]).
  constructor; [split; discriminate|exact H].
Qed.
Fixpoint sum_tree (n : nat) : cexpr Z := match n with 0 => CValue 1%Z | S n' => CAdd (sum_tree n') (CValue 1%Z) end.
Lemma repeat_last : forall (s : list N) n, List.concat (repeat s (S n)) = List.concat (repeat s n) ++ s.
Proof. intros s n. induction n as [|n IH]; [cbn; now rewrite app_nil_r|]. cbn [repeat List.concat] in *. rewrite IH at 1. now rewrite app_assoc. Qed.
Lemma flat_sum_expr : forall n, g_expr dec0 (sum_tree n) (flat_sum n).
Proof.
  assert (T : g_term dec0 (CValue 1%Z) (bs "1")).
  { apply gt_one, gf_num; [left; split; [repeat constructor; unfold digit; cbn; lia|discriminate]|reflexivity]. }
  induction n as [|n IH]; [now apply ge_one|]. unfold flat_sum. rewrite repeat_last, app_assoc. cbn [sum_tree].
  apply (@ge_add Z dec0 (sum_tree n) (CValue 1%Z) (flat_sum n) [] [] (bs "1") IH); [constructor|constructor|exact T].
Qed.
Lemma sum_summands : forall n, summands (sum_tree n) = n.
Proof. induction n as [|n IH]; [reflexivity|]. cbn. now rewrite IH. Qed.
(** Whatever is granted for a text without parentheses: a sum that is accepted takes more. *)
Theorem C133_height_refuted : forall bound, exists s e, no_parens s /\ parse (calculator nd0 dec0) s = Success e (length s) /\
  bound < hgt (snd (mc_calculator nd0 dec0 s 0)).
Proof.
  intros bound. exists (flat_sum bound), (sum_tree bound). split; [apply flat_sum_parens|].
  assert (P : parse (calculator nd0 dec0) (flat_sum bound) = Success (sum_tree bound) (length (flat_sum bound))) by (apply (C78_grammar _ _ _ nd0_ok dec0_ok); split; [reflexivity|apply flat_sum_expr]).
  split; [exact P|]. pose proof (calculator_deep nd0 dec0 nd0_ok dec0_ok _ P) as H. rewrite sum_summands in H. lia.
Qed.
Print Assumptions C133_height_refuted.
(** What holds: the counting parser returns what the calculator returns, and its calls nest in proportion to the length of the text. *)
Theorem C133_height_partial : forall D nd (dec : list N -> D + unit) inp, ascii_class nd -> ascii_only dec ->
  fst (mc_calculator nd dec inp 0) = parse (calculator nd dec) inp /\ hgt (snd (mc_calculator nd dec inp 0)) <= 20 * length inp + 20.
Proof. intros D nd dec inp H1 H2. split; [apply er_calculator|]. pose proof (calculator_height nd dec H1 H2 inp) as H. exact H. Qed.
Print Assumptions C133_height_partial.
(** Every addition and subtraction of the topmost sum costs two calls of depth. *)
Theorem C133_operators : forall D nd (dec : list N -> D + unit) inp e n, ascii_class nd -> ascii_only dec ->
  parse (calculator nd dec) inp = Success e n -> 2 * summands e < hgt (snd (mc_calculator nd dec inp 0)).
Proof. intros D nd dec inp e n H1 H2 H. now apply calculator_deep with (n := n). Qed.
Print Assumptions C133_operators.
(** The library: a repetition adds one call of depth however often it repeats, a chain of operators two for every operator. *)
Theorem C133_repeat_flat : forall A B k (g : mparser A) (s : option (mparser B)) r inp off,
  (forall inp off, hgt (snd (g inp off)) <= k) -> (forall h, s = Some h -> forall inp off, hgt (snd (h inp off)) <= k) -> hgt (snd (m_rep g r s inp off)) <= S k.
Proof. intros A B k g s r inp off H1 H2. pose proof (@fl_rep A B k k g r s H1) as R. rewrite Nat.max_id in R. apply R. destruct s as [h|]; [exact (H2 h eq_refl)|exact I]. Qed.
Print Assumptions C133_repeat_flat.
Theorem C133_chain_deep : forall A (operators : A -> nat) (g : mparser A) (h : mparser (A -> A -> A)) inp off v n,
  (forall inp off f n, fst (h inp off) = Success f n -> forall x y, operators (f x y) <= S (operators x)) ->
  (forall x k, fst (g inp off) = Success x k -> operators x = 0) ->
  fst (m_chain_left1 g h inp off) = Success v n -> 2 * operators v < hgt (snd (m_chain_left1 g h inp off)).
Proof. intros A operators g h inp off v n H1 H2 H. now apply chain_deep with (n := n). Qed.
Print Assumptions C133_chain_deep.
Example C133_example :
  hgt (snd (mc_calculator nd0 dec0 (bs "1") 0)) = 14 /\ hgt (snd (mc_calculator nd0 dec0 (bs "1+1") 0)) = 16 /\ hgt (snd (mc_calculator nd0 dec0 (bs "1+1+1+1") 0)) = 20.
Proof. vm_compute. repeat split. Qed.

(** ** C134 *)
(** Every text is read with a number of calls in proportion to its length. *)
Theorem C134_calls : forall F (f64_parse : list N -> F + unit) utf8 inp,
  fst (mj_json f64_parse utf8 inp 0) = parse (json_p f64_parse utf8) inp /\
  cnt (snd (mj_json f64_parse utf8 inp 0)) <= 600 * length inp + 260.
Proof. intros F f64_parse utf8 inp. split; [apply er_json|apply json_calls]. Qed.
Print Assumptions C134_calls.
Example C134_example :
  cnt (snd (mj_json any_number true (bs "[1]") 0)) = 118 /\ cnt (snd (mj_json any_number true (bs "[[[[1]]]]") 0)) = 304 /\ cnt (snd (mj_json any_number true (bs "[[[[[[[[1") 0)) = 510.
Proof. vm_compute. repeat split. Qed.
