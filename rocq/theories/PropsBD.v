(** C149: no cache of the cron, toys and benchmark parsers finds an answer within one parse. *)
From Verif Require Import CacheSim CacheGrammars PropsX PropsI PropsJ PropsD PropsS CacheOnce CacheTidy CacheTidyGrammars.
From Verif Require Import Base Core Comb Text Json Calc CalcFacts Bench JsonSpec Toys ToysSyntax ToysParse Cron.
Set Implicit Arguments.
Local Open Scope string_scope.
Local Open Scope nat_scope.
Local Open Scope list_scope.

(** C149.  The grammars of CacheOnce.v have the combinator cache() open.  With the cache of the source they are the grammars of C111. *)
Theorem C149_grammars :
  h_instruction (@s_cache) = s_instruction /\ (forall nd k, h_program (@s_cache) nd k = s_program nd k) /\ (forall nd k, h_lines (@s_cache) nd k = s_lines nd k) /\
  (forall F (f64_parse : list N -> F + unit) lossy bytes k, h_bench (@s_cache) f64_parse lossy bytes k = s_bench f64_parse lossy bytes k).
Proof. split; [exact h_instruction_cache|]. split; [exact h_program_cache|]. split; [exact h_lines_cache|]. exact h_bench_cache. Qed.

(** With a cache that panics where the source finds an answer in its map they give what the source gives, and do not panic: so no answer is ever found,
    in no run of any cache during the parse of one text, wherever the states of the parse are put in memory. *)
Theorem C149_cron : forall a text, let o := s_parse (s_skip_right (h_instruction (@s_once)) (s_prim p_end)) a text in o = cron_parse text /\ o <> Panic.
Proof.
  intros a text. cbv zeta. assert (E : s_parse (s_skip_right (h_instruction (@s_once)) (s_prim p_end)) a text = cron_parse text).
  { eapply tidy_run, n_skip_right; [apply o_instruction|apply (tidy_prim _ _ never)]. }
  rewrite E. split; [reflexivity|apply C35_parse_returns].
Qed.
Theorem C149_program : forall nd a text, ascii_class nd -> let o := s_parse (h_program (@s_once) nd (length text)) a text in o = parse (program nd) text /\ o <> Panic.
Proof.
  intros nd a text H. cbv zeta. rewrite (tidy_run (o_program nd a text)). split; [reflexivity|]. destruct (C81_returns text H) as [R _]. now destruct (parse (program nd) text).
Qed.
Theorem C149_lines : forall nd a text, ascii_class nd -> let o := s_parse (h_lines (@s_once) nd (length text)) a text in o = parse (lines nd) text /\ o <> Panic.
Proof.
  intros nd a text H. cbv zeta. rewrite (tidy_run (o_lines nd a text H)). split; [reflexivity|]. destruct (C81_returns text H) as (_ & R & _). now destruct (parse (lines nd) text).
Qed.
Theorem C149_bench_char : forall F (f64_parse : list N -> F + unit) lossy a text, let o := s_parse (h_bench (@s_once) f64_parse lossy false (length text)) a text in
  o = parse (bench_p f64_parse lossy false) text /\ o <> Panic.
Proof. intros F f lossy a text. cbv zeta. rewrite (tidy_run (o_bench f lossy false a text)). split; [reflexivity|apply C104_always_returns]. Qed.
Theorem C149_bench_byte : forall F (f64_parse : list N -> F + unit) lossy a text, (forall s, g_number s -> exists x, f64_parse s = inl x) ->
  let o := s_parse (h_bench (@s_once) f64_parse lossy true (length text)) a text in o = parse (bench_p f64_parse lossy true) text /\ o <> Panic.
Proof. intros F f lossy a text H. cbv zeta. rewrite (tidy_run (o_bench f lossy true a text)). split; [reflexivity|now apply C105_byte_returns]. Qed.

(** A repetition runs one object again and again: at the offsets 0 and 1, whose keys are equal, it finds its answer when the states are at one address.  The
    panic is not hidden by the combinators outside. *)
Definition anyp : sobj N := s_once (s_prim (p_elm_pred (fun _ => true))).
Example C149_seen :
  s_parse (s_many0 anyp) (fun _ => 7) (bs "ab") = Panic /\ s_parse (s_or (s_attempt (s_many0 anyp)) (s_prim (p_successful []))) (fun _ => 7) (bs "ab") = Panic /\ s_parse (s_many0 anyp) (fun t => t) (bs "ab") = Success (bs "ab") 2.
Proof. repeat split; vm_compute; reflexivity. Qed.
Example C149_example :
  s_parse (s_skip_right (h_instruction (@s_once)) (s_prim p_end)) (fun _ => 7) (bs "1-5/2,9 */2 * 1 L") = cron_parse (bs "1-5/2,9 */2 * 1 L") /\
  (exists v, s_parse (h_lines (@s_once) is_ascii_digit 23) (fun _ => 7) (bs "a==(b);{c=f(1);}x=y==1;") = Success v 23) /\
  (exists v, s_parse (h_program (@s_once) is_ascii_digit 23) (fun _ => 7) (bs "global g=1; fn f(a){g;}") = Success v 23) /\
  (exists v, s_parse (h_bench (@s_once) (fun s => inl s) (fun s => s) true 23) (fun _ => 7) (bs "{""a"": [1, ""a"", [""a""]] }") = Success v 23).
Proof. split; [vm_compute; reflexivity|]. split; [|split]; eexists; vm_compute; reflexivity. Qed.
Print Assumptions C149_grammars.
Print Assumptions C149_cron.
Print Assumptions C149_program.
Print Assumptions C149_lines.
Print Assumptions C149_bench_char.
Print Assumptions C149_bench_byte.
