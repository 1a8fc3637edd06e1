(** C150: one parser object with caches used for several texts. *)
From Verif Require Import Agree Hoare Runs JsonFacts BenchFacts ToysParseSound PropsX PropsI CacheSim CacheGrammars CacheReuse.
From Verif Require Import Base Core Comb Text Json Bench JsonSpec Toys ToysParse Cron.
From Coq Require Import Lia.
Set Implicit Arguments.
Local Open Scope string_scope.
Local Open Scope nat_scope.
Local Open Scope list_scope.

(** ** The objects of the grammars *)
Ltac renew := repeat first [assumption|apply renew_prim|apply renew_cache|apply renew_lift|apply renew_seq|apply renew_or|apply renew_lazy|apply renew_rep|apply renew_rep_sep|apply renew_chain].
Lemma renew_digits : forall a x, Renew a x -> Renew a (s_digit_instruction x).
Proof. intros a x H. unfold s_digit_instruction, s_clist, s_crange, s_asterisk_per, s_asterisk, s_range_per, s_per, s_opt. renew. Qed.
Lemma renew_cron : forall a, Renew a (s_skip_right s_instruction (s_prim p_end)).
Proof. intros a. unfold s_instruction, s_dow. renew; apply renew_digits; unfold s_min_digit, s_hour_digit, s_day_digit, s_month_digit, s_day_of_week_text, s_day_of_week_digit; renew. Qed.
Lemma renew_spaced : forall a A (g : sobj A), Renew a g -> Renew a (s_spaced g).
Proof. intros a A g H. unfold s_spaced. renew. Qed.
Lemma renew_expression : forall a nd n, Renew a (s_expression_fuel nd n).
Proof.
  intros a nd. induction n as [|n IH]; [apply renew_prim|]. cbn [s_expression_fuel].
  unfold s_expression_of, s_comparative, s_additive, s_moditive, s_multitive, s_primary_of, s_paren_expr, s_integer, s_string_literal, s_function_call, s_labelled_call, s_array_literal, s_bool_literal, s_identifier, s_param, s_spaced.
  renew.
Qed.
Lemma renew_line : forall a nd k n, Renew a (s_line_fuel nd k n).
Proof.
  intros a nd k. induction n as [|n IH]; [apply renew_prim|]. cbn [s_line_fuel]. pose proof (renew_expression a nd (S k)) as X.
  unfold s_line_of, s_println, s_while, s_if, s_for, s_for_params, s_assignment, s_expression_line, s_block, s_spaced, s_opt, s_expression. renew.
Qed.
Lemma renew_lines : forall a nd k, Renew a (s_lines nd k).
Proof. intros a nd k. unfold s_lines, s_line. pose proof (renew_line a nd k (S k)) as H. apply renew_seq; [apply renew_seq; [apply renew_rep; exact H|apply renew_prim]|apply renew_prim]. Qed.
Lemma renew_program : forall a nd k, Renew a (s_program nd k).
Proof.
  intros a nd k. unfold s_program, s_top_level_definition, s_function_definition, s_global_variable_definition, s_block, s_line, s_expression, s_spaced.
  pose proof (renew_line a nd k (S k)) as H. pose proof (renew_expression a nd (S k)) as X. apply renew_seq; [apply renew_prim|]. apply renew_lift, renew_rep, renew_lift, renew_or; apply renew_cache, renew_lift.
  - apply renew_seq; [apply renew_seq; [apply renew_prim|]|apply renew_prim]. apply renew_lift, renew_seq; [apply renew_seq; [apply renew_prim|exact X]|apply renew_prim].
  - apply renew_seq; [apply renew_seq; [apply renew_prim|]|apply renew_prim]. apply renew_lift, renew_seq; [apply renew_prim|]. apply renew_cache, renew_lift.
    apply renew_seq; [apply renew_seq; [apply renew_prim|]|apply renew_prim]. apply renew_lift, renew_seq; [apply renew_prim|]. apply renew_seq; [|apply renew_prim]. apply renew_rep, renew_lazy, H.
Qed.
Lemma renew_b_string : forall a lossy bytes, Renew a (s_b_string lossy bytes).
Proof. intros a lossy [|]; [unfold s_b_string, s_string_byte|unfold s_b_string, s_string_char]; renew. Qed.
Lemma renew_bench : forall a F (f64_parse : list N -> F + unit) lossy bytes k, Renew a (s_bench f64_parse lossy bytes k).
Proof.
  intros a F f lossy bytes k. assert (V : forall n, Renew a (s_b_value f lossy bytes n)).
  { induction n as [|n IH]; [apply renew_prim|]. cbn [s_b_value]. pose proof (renew_b_string a lossy bytes) as S.
    unfold s_b_value_step, s_b_array, s_b_object, s_b_member. apply renew_seq; [|apply renew_prim]. repeat apply renew_or; apply renew_cache.
    - apply renew_lift, S.
    - apply renew_prim.
    - apply renew_prim.
    - apply renew_prim.
    - apply renew_lift, renew_seq; [apply renew_prim|]. apply renew_seq; [|apply renew_prim]. apply renew_rep_sep; [apply renew_cache, renew_lazy, IH|apply renew_prim].
    - apply renew_lift, renew_lift, renew_seq; [apply renew_prim|]. apply renew_seq; [|apply renew_prim]. apply renew_rep_sep; [|apply renew_prim].
      apply renew_seq; [|apply renew_cache, renew_lazy, IH]. apply renew_seq; [apply renew_seq; [apply renew_seq; [apply renew_cache, S|]|]|]; apply renew_prim. }
  apply renew_seq; [apply renew_seq; [apply renew_prim|apply renew_cache, V]|apply renew_prim].
Qed.

(** The fuel of the benchmark parser may be more than the length of the text. *)
Section Fuel.
Variable F : Type.
Variable f64_parse : list N -> F + unit.
Variable lossy : list N -> list N.
Variable bytes : bool.
Lemma open_consumes : forall c, Agree.consumes (p_skip_right (b_elm bytes c) space).
Proof.
  intros c. eapply hoare_consumes with (Q := fun _ s => exists a, s = [c] ++ a).
  - eapply h_skip_right; [unfold b_elm; destruct bytes; [apply h_elm with (R := fun _ s => s = [c])|apply h_elm_ref with (R := fun _ s => s = [c])]; reflexivity|apply h_space|].
    cbv beta. intros _ _ s t -> _. now exists t.
  - intros v s (a & ->). discriminate.
  - intros inp off Ho v n E. unfold p_skip_right in E. destruct (b_elm bytes c inp off) eqn:E1; try discriminate. revert E1. unfold b_elm. destruct bytes; [|now apply elm_ref_out].
    unfold p_elm, p_elm_eq, p_map. destruct (p_elm_ref_eq N.eqb c inp off) as [w k| | |] eqn:E2; try discriminate. now apply elm_ref_out in E2.
Qed.
Lemma step_agree : forall n p q, agree n p q -> agree (S n) (b_value_step f64_parse lossy bytes p) (b_value_step f64_parse lossy bytes q).
Proof.
  intros n p q H. unfold b_value_step. apply ag_skip_right; [|apply ag_refl]. repeat (apply ag_or; [|apply ag_map]); try apply ag_refl.
  - unfold b_array. apply ag_surround_S; [apply open_consumes|]. apply ag_repeat_sep, ag_lazy, H.
  - unfold b_object. apply ag_map, ag_surround_S; [apply open_consumes|]. apply ag_repeat_sep. unfold b_member. apply ag_and; [apply ag_refl|]. apply ag_lazy, H.
Qed.
Lemma value_agree : forall n m, n <= m -> agree n (b_value f64_parse lossy bytes m) (b_value f64_parse lossy bytes n).
Proof.
  induction n as [|n IH]; intros m Hm; [intros inp off H; lia|]. destruct m as [|m]; [lia|]. cbn [b_value]. apply step_agree, IH. lia.
Qed.
Lemma bench_more : forall k inp, length inp <= k -> forall off, bench_fuel f64_parse lossy bytes (S k) inp off = bench_p f64_parse lossy bytes inp off.
Proof.
  intros k inp Hk off. unfold bench_p, bench_fuel. apply (ag_skip_right (ag_skip_left (ag_refl b_space) (value_agree (le_n_S _ _ Hk))) (ag_refl p_end)). lia.
Qed.
End Fuel.

Lemma map_combine : forall A B C (f : A * B -> C) (h : B -> C) Ts (xs : list B), length Ts = length xs -> (forall t x, In x xs -> f (t, x) = h x) -> map f (combine Ts xs) = map h xs.
Proof.
  intros A B C f h. induction Ts as [|t Ts IH]; intros [|x xs] L E; try discriminate; [reflexivity|]. cbn [combine map]. f_equal; [apply E; now left|]. apply IH; [now injection L|].
  intros t' x' H. apply E. now right.
Qed.

(** ** C150 *)
(** When no state of a later text stands where a state of an earlier text stood, the object reads every text as the parsers of the modules without caches do. *)
Theorem C150_cron : forall a texts, let g := s_skip_right s_instruction (s_prim p_end) in
  Forall (fresh a) (s_starts g a texts (0, st0 g)) -> s_uses g a texts (0, st0 g) = map cron_parse texts.
Proof.
  intros a texts g H. destruct (renew_uses (renew_cron a) texts H) as (Ts & L & E). unfold g. rewrite E. apply map_combine; [exact L|]. intros t x _. cbn [fst snd]. rewrite <- (C111_cron (later a t) x). unfold s_cron_parse. reflexivity.
Qed.
Theorem C150_program : forall nd a k texts, ascii_class nd -> Forall (fun t => length t <= k) texts -> let g := s_program nd k in
  Forall (fresh a) (s_starts g a texts (0, st0 g)) -> s_uses g a texts (0, st0 g) = map (parse (program nd)) texts.
Proof.
  intros nd a k texts Hn Hk g H. destruct (renew_uses (renew_program a nd k) texts H) as (Ts & L & E). unfold g. rewrite E. apply map_combine; [exact L|]. intros t x Hx.
  rewrite Forall_forall in Hk. specialize (Hk x Hx). cbn [fst snd]. apply faith_run, k_program; [exact Hk|]. intros off. apply line_enough; [exact Hn|lia].
Qed.
Theorem C150_lines : forall nd a k texts, ascii_class nd -> Forall (fun t => length t <= k) texts -> let g := s_lines nd k in
  Forall (fresh a) (s_starts g a texts (0, st0 g)) -> s_uses g a texts (0, st0 g) = map (parse (lines nd)) texts.
Proof.
  intros nd a k texts Hn Hk g H. destruct (renew_uses (renew_lines a nd k) texts H) as (Ts & L & E). unfold g. rewrite E. apply map_combine; [exact L|]. intros t x Hx.
  rewrite Forall_forall in Hk. specialize (Hk x Hx). cbn [fst snd]. apply faith_run, k_lines; [exact Hk|]. intros off. apply line_enough; [exact Hn|lia].
Qed.
Theorem C150_bench : forall F (f64_parse : list N -> F + unit) lossy bytes a k texts, Forall (fun t => length t <= k) texts -> let g := s_bench f64_parse lossy bytes k in
  Forall (fresh a) (s_starts g a texts (0, st0 g)) -> s_uses g a texts (0, st0 g) = map (parse (bench_p f64_parse lossy bytes)) texts.
Proof.
  intros F f lossy bytes a k texts Hk g H. destruct (renew_uses (renew_bench a f lossy bytes k) texts H) as (Ts & L & E). unfold g. rewrite E. apply map_combine; [exact L|]. intros t x Hx.
  rewrite Forall_forall in Hk. specialize (Hk x Hx). cbn [fst snd]. apply faith_run, k_bench, bench_more, Hk.
Qed.
(** States that all have addresses of their own are always enough. *)
Lemma injective_fresh : forall a, (forall t u, a t = a u -> t = u) -> forall l, Forall (fresh a) l.
Proof. intros a H. induction l as [|T l IH]; constructor; [|exact IH]. intros t u Lt Lu E. apply H in E. lia. Qed.
(** The texts of the example are read with the states of every parse at the addresses 100, 101, ... of its own page. *)
Example C150_example : let g := s_skip_right s_instruction (s_prim p_end) in let texts := [bs "1 * * * *"; bs "2 * * * *"; bs "60 * * * *"] in
  Forall (fresh (fun t => 100 + t)) (s_starts g (fun t => 100 + t) texts (0, st0 g)) /\
  s_uses g (fun t => 100 + t) texts (0, st0 g) = map cron_parse texts /\
  map cron_parse (firstn 2 texts) =
    [Success (Cron (ValueExpr 1) AnyValueExpr AnyValueExpr AnyValueExpr AnyValueExpr) 9; Success (Cron (ValueExpr 2) AnyValueExpr AnyValueExpr AnyValueExpr AnyValueExpr) 9] /\
  NoDup (s_starts g (fun t => 100 + t) texts (0, st0 g)).
Proof.
  cbv zeta. split; [apply injective_fresh; lia|]. split; [apply C150_cron, injective_fresh; lia|]. split; [vm_compute; reflexivity|].
  match goal with |- NoDup ?l => let v := eval vm_compute in l in change (NoDup v) end. repeat constructor; cbn; lia.
Qed.

Lemma end_length : forall (x y : list N) off z j, length x = length y -> p_end x off = Success z j -> p_end y off = Success z j.
Proof.
  intros x y off z j L E. unfold p_end, ps_input, slice_from in *. rewrite <- L. destruct (off <=? length x); [|discriminate]. pose proof (skipn_length off x) as A. pose proof (skipn_length off y) as B.
  destruct (skipn off x); [|discriminate]. destruct (skipn off y); [exact E|]. cbn [length] in *. lia.
Qed.
Lemma stale : forall A (q : sobj A) x w1 r1 w2 r2 v n, ws w1 -> ws w2 -> no_ws r1 -> no_ws r2 -> length w1 = length w2 -> length r1 = length r2 ->
  let g := s_skip_right (s_skip_left (s_prim b_space) (s_cache q)) (s_prim p_end) in let a := fun _ => x in
  s_uses g a [w1 ++ r1] (0, st0 g) = [Success v n] -> s_uses g a [w1 ++ r1; w2 ++ r2] (0, st0 g) = [Success v n; Success v n].
Proof.
  intros A q x w1 r1 w2 r2 v n W1 W2 N1 N2 Lw Lr. cbv zeta.
  pose proof (a_space _ W1 N1 []) as S1. pose proof (a_space _ W2 N2 []) as S2. cbn [app length] in S1, S2. change space with b_space in S1, S2.
  intros H. cbn [s_uses] in *.
  cbn [s_skip_right s_skip_left s_seq s_prim s_cache srun st st0 fst snd m_find] in *. rewrite S1 in *. cbn [Nat.add] in *.
  destruct (srun q (fun _ => x) (w1 ++ r1) (length w1) (1, st0 q)) as [o [t s]] eqn:E. destruct o as [y m|e c| |]; try discriminate.
  destruct (p_end (w1 ++ r1) (length w1 + m)) as [z j|e c| |] eqn:E1; try discriminate. injection H as <- <-. rewrite S2. rewrite <- Lw. cbn [m_find]. rewrite !Nat.eqb_refl. cbn [andb].
  assert (E2 : p_end (w2 ++ r2) (length w1 + m) = Success z j); [|now rewrite E2]. revert E1. apply end_length. rewrite !app_length. lia.
Qed.
(** Without that an object repeats the answers of earlier texts.  The benchmark parser does not look at a text at all when it has read another one of this
    length with as many blanks in front, and its states are where they were. *)
Theorem C150_bench_stale : forall F (f64_parse : list N -> F + unit) lossy bytes k x w1 r1 w2 r2 v n, ws w1 -> ws w2 -> no_ws r1 -> no_ws r2 -> length w1 = length w2 -> length r1 = length r2 ->
  let g := s_bench f64_parse lossy bytes k in let a := fun _ => x in
  s_uses g a [w1 ++ r1] (0, st0 g) = [Success v n] -> s_uses g a [w1 ++ r1; w2 ++ r2] (0, st0 g) = [Success v n; Success v n].
Proof. intros F f lossy bytes k x w1 r1 w2 r2 v n W1 W2 N1 N2 Lw Lr. exact (@stale _ (s_b_value f lossy bytes (S k)) x w1 r1 w2 r2 v n W1 W2 N1 N2 Lw Lr). Qed.
Example C150_bench_example : let g := s_bench (fun s => inl s) (fun s => s) true 9 in let a := fun _ => 7 in
  s_uses g a [bs " [1, 2]"; bs " [3, 4]"; bs " no JSON"; bs " wrong "] (0, st0 g) =
    [Success (JArray [JNum (bs "1"); JNum (bs "2")]) 7; Success (JArray [JNum (bs "1"); JNum (bs "2")]) 7;
     Failure (Mismatch (bs "N") 8 1 "expect end of input") Uncommitted; Success (JArray [JNum (bs "1"); JNum (bs "2")]) 7].
Proof. vm_compute. reflexivity. Qed.
(** A cron text and a program are read wrong in the same way. *)
Theorem C150_cron_refuted : exists t1 t2 v, let g := s_skip_right s_instruction (s_prim p_end) in let a := fun _ => 7 in
  s_uses g a [t1; t2] (0, st0 g) = [Success v (length t1); Success v (length t2)] /\ cron_parse t1 = Success v (length t1) /\
  exists w, cron_parse t2 = Success w (length t2) /\ w <> v.
Proof.
  exists (bs "1 * * * *"), (bs "2 * * * *"), (Cron (ValueExpr 1) AnyValueExpr AnyValueExpr AnyValueExpr AnyValueExpr). cbv zeta. split; [vm_compute; reflexivity|]. split; [vm_compute; reflexivity|].
  exists (Cron (ValueExpr 2) AnyValueExpr AnyValueExpr AnyValueExpr AnyValueExpr). split; [vm_compute; reflexivity|discriminate].
Qed.
Theorem C150_program_refuted : exists t1 t2 v, let g := s_program is_ascii_digit 20 in let a := fun _ => 7 in length t1 <= 20 /\ length t2 <= 20 /\
  s_uses g a [t1; t2] (0, st0 g) = [Success v (length t1); Success v (length t2)] /\ parse (program is_ascii_digit) t1 = Success v (length t1) /\
  exists w, parse (program is_ascii_digit) t2 = Success w (length t2) /\ w <> v.
Proof.
  exists (bs "global x=1;"), (bs "global y=2;"), (EProgram [EGlobal (bs "x") (EInt 1)]). cbv zeta. split; [cbn; lia|]. split; [cbn; lia|]. split; [vm_compute; reflexivity|]. split; [vm_compute; reflexivity|].
  exists (EProgram [EGlobal (bs "y") (EInt 2)]). split; [vm_compute; reflexivity|discriminate].
Qed.
Print Assumptions C150_cron.
Print Assumptions C150_program.
Print Assumptions C150_lines.
Print Assumptions C150_bench.
Print Assumptions C150_bench_stale.
Print Assumptions C150_cron_refuted.
Print Assumptions C150_program_refuted.
