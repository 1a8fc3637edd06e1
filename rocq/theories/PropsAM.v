(** C128, C129: parts of grammars, and grammars that refer to themselves. *)
From Verif Require Import Base Core Comb Closure Text Agree Exchange.
From Verif Require Json JsonFacts Calc CalcFacts Bench BenchFacts Toys ToysParse ToysParseSound Hocon HoconParse.
Set Implicit Arguments.
Local Open Scope string_scope.
Local Open Scope nat_scope.
Local Open Scope list_scope.

(** ** C128: exchanging parts *)
(** The same results: value, length, error and commit status, everywhere. *)
Definition equals {I} (A : Type) (p q : parser I A) : Prop := forall inp off, p inp off = q inp off.
(** The same results up to the content of errors. *)
Definition decides {I} (A : Type) (p q : parser I A) : Prop := forall inp off, erase (p inp off) = erase (q inp off).
(** The same results wherever the first one returns. *)
Definition below {I} (A : Type) (p q : parser I A) : Prop := forall inp off, p inp off <> Diverge -> q inp off = p inp off.

Theorem C128_equal_parts : forall I A (p q : parser I A), inside (@equals I) p q -> equals p q.
Proof.
  intros I A p q H inp off. apply alike_eq. revert inp off. change (exchangeable false false p q).
  apply inside_exchangeable with (2 := H). intros B a b E inp off. rewrite E. apply alike_refl.
Qed.
(** Errors have no influence: a part may be exchanged for one that reports its failures differently. *)
Theorem C128_decisions : forall I A (p q : parser I A), inside (@decides I) p q -> decides p q.
Proof.
  intros I A p q H inp off. apply alike_shape. revert inp off. change (exchangeable false true p q).
  apply inside_exchangeable with (2 := H). intros B a b E inp off. apply alike_shape, E.
Qed.
Theorem C128_returned : forall I A (p q : parser I A), inside (@below I) p q -> below p q.
Proof.
  intros I A p q H inp off N.
  assert (K : alike true false (p inp off) (q inp off)).
  { revert inp off N. enough (G : exchangeable true false p q) by (intros; apply G).
    apply inside_exchangeable with (2 := H). intros B a b E inp off. apply alike_below.
    destruct (a inp off) eqn:Ea; auto; right; symmetry; rewrite <- Ea; apply E; rewrite Ea; discriminate. }
  apply alike_below in K. destruct K; congruence.
Qed.
(** Names, expectations and log calls, added or left out. *)
Inductive decoration {I} : forall A, parser I A -> parser I A -> Prop :=
| D_name : forall A (p : parser I A) nm, decoration p (p_name p nm)
| D_expect : forall A (p : parser I A) nm, decoration p (p_expect p nm)
| D_log : forall A B (p : parser I A) (f : outcome I A -> B), decoration p (p_log_map p f)
| D_name' : forall A (p : parser I A) nm, decoration (p_name p nm) p
| D_expect' : forall A (p : parser I A) nm, decoration (p_expect p nm) p
| D_log' : forall A B (p : parser I A) (f : outcome I A -> B), decoration (p_log_map p f) p
| D_failed : forall A e e' c, decoration (@p_failed I A e c) (p_failed e' c).
Theorem C128_decorations : forall I A (p q : parser I A), inside (@decoration I) p q -> decides p q.
Proof.
  intros I A p q H inp off. apply alike_shape. revert inp off. change (exchangeable false true p q).
  apply inside_exchangeable with (2 := H). intros B a b E inp off. apply alike_shape.
  destruct E; unfold p_name, p_expect, p_log_map, p_failed; try reflexivity; destruct (p0 inp off); try reflexivity; destruct (is_custom error); reflexivity.
Qed.
(** A list of digits with decorations at four places, one of them under not and one in a repetition. *)
Definition dec_plain : parser N (list N) := p_many1_sep (p_skip_left (p_not (p_elm (chr "0"))) p_elm_digit) (p_elm (chr ",")).
Definition dec_named : parser N (list N) :=
  p_expect (p_many1_sep (p_skip_left (p_not (p_name (p_elm (chr "0")) "zero")) (p_name (p_expect p_elm_digit "digit") "number")) (p_elm (chr ","))) "list".
Example C128_case : inside (@decoration N) dec_named dec_plain /\ erase (parse dec_named (bs "1,2,0")) = erase (parse dec_plain (bs "1,2,0")) /\
  parse dec_named (bs "1,2,0") = Success (bs "12") 4 /\ parse dec_named (bs "0") <> parse dec_plain (bs "0") /\ erase (parse dec_named (bs "0")) = ShFailure Uncommitted.
Proof.
  split; [|split; [|split; [|split]]]; try (vm_compute; (reflexivity || discriminate)).
  eapply X_trans; [apply X_base, D_expect'|]. apply X_repeat_sep; [|apply X_refl].
  apply X_skip_left; [apply X_not, X_base, D_name'|]. eapply X_trans; apply X_base; [apply D_name'|apply D_expect'].
Qed.
Print Assumptions C128_equal_parts.
Print Assumptions C128_decisions.
Print Assumptions C128_returned.
Print Assumptions C128_decorations.

(** ** C129: grammars that refer to themselves *)
(** A parser that satisfies the equation of a recursive grammar, as the functions of the source do: value() is the
    parser [step] with lazy(value) in its place. *)
Definition solves {I A} (step : parser I A -> parser I A) (X : parser I A) : Prop := forall inp off, X inp off = step X inp off.
(** The grammar is one parser: there is exactly one solution, and it is [X]. *)
Definition determines {I A} (step : parser I A -> parser I A) (X : parser I A) : Prop :=
  solves step X /\ forall Y, solves step Y -> equals Y X.
(** The first [n] levels of the recursion, with anything below. *)
Fixpoint levels {I A} (step : parser I A -> parser I A) (n : nat) (bottom : parser I A) : parser I A :=
  match n with 0 => bottom | S n => step (levels step n bottom) end.

(** The recursive reference comes after something that is consumed. *)
Definition guarded {I A} (step : parser I A -> parser I A) : Prop := forall n p q, agree n p q -> agree (S n) (step p) (step q).
Theorem C129_guarded : forall I A (step : parser I A -> parser I A), guarded step ->
  exists X, determines step X /\
  (* so much of the recursion is needed: a level for each element that is left, and one more *)
  forall n bottom inp off, length inp - off < n -> levels step n bottom inp off = X inp off.
Proof.
  intros I A step G.
  assert (K : forall n m X Y, n <= m -> agree n (levels step n X) (levels step m Y)).
  { induction n as [|n IH]; intros m X Y H; [intros inp off L; lia|]. destruct m as [|m]; [lia|]. cbn [levels]. apply G, IH. lia. }
  set (X := fun inp off => levels step (S (length inp - off)) p_diverge inp off : outcome I A).
  assert (L : forall n bottom, agree n (levels step n bottom) X).
  { intros n bottom inp off H. unfold X. symmetry. apply K; lia. }
  assert (S1 : solves step X).
  { intros inp off. rewrite <- (L (S (length inp - off)) p_diverge inp off) by lia. cbn [levels]. apply G with (n := length inp - off); [apply L|lia]. }
  exists X. split; [split; [exact S1|]|intros; now apply L].
  intros Y HY inp off. enough (E : forall n, agree n Y X) by (apply (E (S (length inp - off))); lia).
  induction n as [|n IH]; intros i o H; [lia|]. rewrite HY, S1. now apply (G n).
Qed.
(** The form in which the grammars below are defined. *)
Lemma determined : forall I A (step : parser I A -> parser I A) (fuel : nat -> parser I A), guarded step ->
  (forall n, fuel (S n) = step (fuel n)) -> determines step (fun inp off => fuel (S (length inp)) inp off).
Proof.
  intros I A step fuel G E. destruct (C129_guarded G) as (X & [S1 U] & L).
  assert (F : forall n, fuel n = levels step n (fuel 0)) by (induction n as [|n IH]; [reflexivity|]; cbn [levels]; now rewrite E, IH).
  assert (Q : forall inp off, fuel (S (length inp)) inp off = X inp off) by (intros inp off; rewrite F; apply L; lia).
  split.
  - intros inp off. rewrite Q, S1. pose proof (G (S (length inp - off)) X (fun i o => fuel (S (length i)) i o)) as K.
    apply K; [|lia]. intros i o _. symmetry. apply Q.
  - intros Y HY inp off. rewrite Q. now apply U.
Qed.

(** The grammars of the repository: each is the only solution of its equation. *)
Theorem C129_json : forall F (f64_parse : list N -> F + unit) utf8,
  determines (Json.value_step f64_parse utf8) (fun inp off => Json.value_fuel f64_parse utf8 (S (length inp)) inp off).
Proof. intros F f u. apply determined; [|reflexivity]. intros n p q. apply JsonFacts.ag_value_step. Qed.
Theorem C129_json_document : forall F (f64_parse : list N -> F + unit) utf8 X, solves (Json.value_step f64_parse utf8) X ->
  equals (p_skip_right (p_skip_left Json.space X) p_end) (Json.json_p f64_parse utf8).
Proof.
  intros F f u X H. pose proof (proj2 (C129_json f u) X H) as E. apply C128_equal_parts.
  eapply X_trans; [apply X_skip_right; [apply X_skip_left; [apply X_refl|apply X_base; exact E]|apply X_refl]|]. apply X_base. intros inp off. reflexivity.
Qed.
Theorem C129_calculator : forall D nd (dec : list N -> D + unit),
  determines (fun primary => Calc.primary_step nd dec primary (Calc.additive primary)) (fun inp off => Calc.primary_fuel nd dec (S (length inp)) inp off).
Proof. intros D nd dec. apply determined; [|reflexivity]. intros n p q H. apply CalcFacts.ag_primary_step; [exact H|now apply CalcFacts.ag_additive]. Qed.
Theorem C129_toys : forall nd,
  determines (fun e => ToysParse.expression_of (ToysParse.primary_of nd e)) (ToysParse.expression nd) /\
  ((forall x, (x < 128)%N -> nd x = true <-> digit x) -> determines (ToysParse.line_of nd) (ToysParse.line nd)).
Proof.
  intros nd. split; [|intros Hd]; (apply determined; [|reflexivity]); intros n p q H; [apply ToysParseSound.ag_expression_of|]; [now apply ToysParseSound.ag_primary_of|now apply ToysParseSound.ag_line_of].
Qed.
Lemma consumes_belm : forall bytes c, consumes (p_skip_right (Bench.b_elm bytes c) Json.space).
Proof.
  intros bytes c. unfold Bench.b_elm. destruct bytes; [|apply JsonFacts.consumes_open2].
  intros inp off v n H. apply (@JsonFacts.consumes_open2 c inp off v n). rewrite <- H. unfold p_skip_right, p_elm, p_elm_eq, p_map, p_elm_ref. now destruct (p_elm_ref_eq N.eqb c inp off).
Qed.
Theorem C129_bench : forall F (f64_parse : list N -> F + unit) lossy bytes,
  determines (Bench.b_value_step f64_parse lossy bytes) (fun inp off => Bench.b_value f64_parse lossy bytes (S (length inp)) inp off).
Proof.
  intros F f lossy bytes. apply determined; [|reflexivity]. intros n p q H. unfold Bench.b_value_step. apply ag_skip_right; [|apply ag_refl].
  repeat (apply ag_or; [|apply ag_map]); try apply ag_refl.
  - unfold Bench.b_array. apply ag_surround_S; [apply consumes_belm|]. apply ag_repeat_sep, ag_lazy, H.
  - unfold Bench.b_object. apply ag_map, ag_surround_S; [apply consumes_belm|]. apply ag_repeat_sep. unfold Bench.b_member. apply ag_and; [apply ag_refl|]. apply ag_lazy, H.
Qed.
(** The two equations of the HOCON grammar. *)
Definition solves_hocon {D} (dec : list N -> option D) (V : parser N (Hocon.cv D)) (P : parser N (list N * Hocon.cv D)) : Prop :=
  (forall inp off, V inp off = Hocon.value_step dec V P inp off) /\ (forall inp off, P inp off = Hocon.property_step V P inp off).
Theorem C129_hocon : forall D (dec : list N -> option D),
  let V := fun inp off => Hocon.value_fuel dec (S (length inp)) inp off in
  let P := fun inp off => Hocon.property_fuel dec (S (length inp)) inp off in
  solves_hocon dec V P /\ forall V' P', solves_hocon dec V' P' -> equals V' V /\ equals P' P.
Proof.
  intros D dec V P.
  assert (K : forall n m, n <= m -> agree n (Hocon.value_fuel dec n) (Hocon.value_fuel dec m) /\ agree n (Hocon.property_fuel dec n) (Hocon.property_fuel dec m)).
  { induction n as [|n IH]; intros m H; [split; intros inp off L; lia|]. destruct m as [|m]; [lia|].
    destruct (IH m ltac:(lia)) as [H1 H2]. exact (HoconParse.ag_steps dec H1 H2). }
  assert (L : forall n, agree n (Hocon.value_fuel dec n) V /\ agree n (Hocon.property_fuel dec n) P).
  { intros n. split; intros inp off H; unfold V, P.
    - destruct (Nat.le_gt_cases n (S (length inp))) as [C|C]; [now apply K|symmetry; apply (K (S (length inp))); lia].
    - destruct (Nat.le_gt_cases n (S (length inp))) as [C|C]; [now apply K|symmetry; apply (K (S (length inp))); lia]. }
  assert (S1 : solves_hocon dec V P).
  { split; intros inp off; destruct (L (length inp - off)) as [L1 L2]; destruct (HoconParse.ag_steps dec L1 L2) as [M1 M2];
      [rewrite <- M1 by lia|rewrite <- M2 by lia]; [destruct (L (S (length inp - off))) as [E _]|destruct (L (S (length inp - off))) as [_ E]];
      rewrite <- E by lia; reflexivity. }
  split; [exact S1|]. intros V' P' [HV HP].
  enough (E : forall n, agree n V' V /\ agree n P' P) by (split; intros inp off; apply (E (S (length inp - off))); lia).
  induction n as [|n [IH1 IH2]]; [split; intros inp off H; lia|]. destruct (HoconParse.ag_steps dec IH1 IH2) as [M1 M2]. destruct S1 as [SV SP].
  split; intros inp off H; [rewrite HV, SV; now apply M1|rewrite HP, SP; now apply M2].
Qed.
(** A grammar whose recursive reference comes first never returns, on no input, however deep the recursion may go. *)
Theorem C129_left_recursion : forall I A B (q : parser I B) (f : A * B -> A) (r : parser I A) n inp off,
  levels (fun X => p_or (p_map (p_and X q) f) r) n p_diverge inp off = Diverge.
Proof. intros I A B q f r n inp off. induction n as [|n IH]; [reflexivity|]. cbn [levels]. unfold p_or at 1, p_map at 1, p_and at 1. now rewrite IH. Qed.
(** Its equation says nothing: running for ever is a solution, and so is panicking. *)
Theorem C129_left_recursion_ambiguous : exists (step : parser N N -> parser N N) X Y,
  (exists q f r, step = fun X => p_or (p_map (p_and X (q : parser N N)) f) r) /\ solves step X /\ solves step Y /\ ~ equals X Y.
Proof.
  exists (fun X => p_or (p_map (p_and X (p_elm (chr "a"))) fst) (p_elm (chr "b"))), p_diverge, (fun _ _ => Panic).
  split; [exists (p_elm (chr "a")), fst, (p_elm (chr "b")); reflexivity|]. repeat split; try (intros inp off; reflexivity).
  intros H. specialize (H [] 0). discriminate.
Qed.
(** Nested brackets around a letter: an equation with its solution at work. *)
Definition nest_step (X : parser N nat) : parser N nat :=
  p_or (p_map (p_surround (p_elm_ref (chr "(")) (p_lazy (fun _ => X)) (p_elm_ref (chr ")"))) S) (p_map (p_elm_ref (chr "x")) (fun _ => 0)).
Example C129_case : guarded nest_step /\ levels nest_step 4 p_diverge (bs "((x))") 0 = Success 2 5 /\ levels nest_step 2 p_diverge (bs "((x))") 0 = Diverge.
Proof.
  split; [|split; vm_compute; reflexivity]. intros n p q H. unfold nest_step. apply ag_or; [|apply ag_refl]. apply ag_map, ag_surround_S; [|exact H].
  intros inp off v k E. destruct (Nat.le_gt_cases off (length inp)) as [C|C]; [|now apply JsonFacts.elm_ref_out in E].
  unfold p_elm_ref, p_elm_ref_eq, p_elm_pred_ref in E. rewrite ps_input_ok in E by exact C. destruct (skipn off inp) as [|y l] eqn:Es; [discriminate|].
  destruct (y =? chr "(")%N; [|discriminate]. inv E. pose proof (f_equal (@length N) Es) as L. rewrite skipn_length in L. cbn in L. lia.
Qed.
Print Assumptions C129_guarded.
Print Assumptions C129_json.
Print Assumptions C129_json_document.
Print Assumptions C129_calculator.
Print Assumptions C129_toys.
Print Assumptions C129_bench.
Print Assumptions C129_hocon.
Print Assumptions C129_left_recursion.
Print Assumptions C129_left_recursion_ambiguous.
