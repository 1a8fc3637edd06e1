(** The grammars with caches (cron, toys, benchmark parsers) run again on one text: the rules of CacheAgain put together as those of CacheSim are in PropsX. *)
From Verif Require ToysParseSound.
From Verif Require Import PropsX.
From Verif Require Import Base Core Comb Closure Text Json Calc Toys ToysParse Bench Cron CacheSim CacheGrammars CacheAgain.
From Coq Require Import Lia.
Set Implicit Arguments.
Local Open Scope string_scope.
Local Open Scope nat_scope.
Local Open Scope list_scope.

Section Cron.
Variable a : nat -> nat.
Variable inp : list N.
Notation Again := (Again a inp).
Lemma r_per : forall x p, Again false x p -> Again false (s_per x) (per p).
Proof. intros x p H. apply again_skip_left; [apply again_prim|exact H]. Qed.
Lemma r_asterisk : Again false s_asterisk asterisk.
Proof. apply again_cache, again_prim. Qed.
Lemma r_crange : forall x p, Again false x p -> Again false (s_crange x) (crange p).
Proof.
  intros x p H. apply again_attempt, again_map, again_and; [apply again_and; [apply again_skip_right; [exact H|apply again_prim]|exact H]|].
  apply again_map, again_opt, r_per, H.
Qed.
Lemma r_digit_instruction : forall x p, Again false x p -> consumes 1 p -> Again false (s_digit_instruction x) (digit_instruction p).
Proof.
  intros x p H C. apply again_or; [apply again_or|apply r_asterisk].
  - apply again_attempt, again_map. apply again_rep_sep; [apply again_or; [now apply r_crange|exact H]|apply again_prim|apply c_or; [now apply c_crange|exact C]|right; apply c_elm].
  - apply again_cache, again_attempt, again_map, again_and; [apply r_asterisk|now apply r_per].
Qed.
Lemma r_instruction : Again false s_instruction instruction.
Proof.
  unfold s_instruction, instruction. apply again_map.
  assert (D : forall A (p : parser N A), Again false (s_cache (s_prim p)) p) by (intros A p; apply again_cache, again_prim).
  repeat (apply again_and; [apply again_skip_right; [|apply again_prim]|]); apply r_digit_instruction;
    try apply D; auto using c_min, c_hour, c_day, c_month, c_dow. apply again_or; apply D.
Qed.
End Cron.

Section Toys.
Variable nd : N -> bool.
Variable a : nat -> nat.
Variable inp : list N.
Notation Again := (Again a inp).
Notation Free := (Free a inp).
Lemma r_spaced : forall A (g : sobj A) p, Again false g p -> Again false (s_spaced g) (spaced p).
Proof. intros A g p H. apply again_skip_right; [apply again_skip_left; [apply again_prim|exact H]|apply again_prim]. Qed.
Lemma r_expression_of : forall g p, Again false g p -> consumes 1 p -> Again false (s_expression_of g) (expression_of p).
Proof.
  intros g p H C. apply again_cache, again_name, again_cache, again_name, again_chain; [|apply again_prim| |].
  - apply again_cache, again_name, again_chain; [|apply again_prim| |apply c_map_panic, c_or; apply c_sym].
    + apply again_cache, again_name, again_chain; [|apply again_prim| |apply c_map_panic, c_sym].
      * apply again_cache, again_name, again_chain; [exact H|apply again_prim|exact C|apply c_map_panic, c_or; apply c_sym].
      * unfold t_multitive. cons. exact C.
    + unfold t_moditive, t_multitive. cons. exact C.
  - unfold t_additive, t_moditive, t_multitive. cons. exact C.
  - apply c_map_panic, c_spaced. cons.
Qed.
Lemma r_primary : forall e p, Again false e p -> Again false (s_primary_of nd e) (primary_of nd p).
Proof.
  intros e p H. assert (L : Free (s_lazy e) (p_lazy (fun _ => p))) by exact (again_new H). assert (Pr : forall A (q : parser N A), Free (s_prim q) q) by (intros; apply free_prim).
  apply again_cache, again_name, again_cache. repeat apply again_or.
  - apply free_again, free_map, free_skip_right; [apply free_skip_left; [apply Pr|exact L]|apply Pr].
  - apply again_cache, again_prim.
  - apply again_cache, again_prim.
  - apply again_cache, again_name, again_attempt, r_spaced, free_again, free_map, free_and; [apply Pr|]. apply free_surround; [apply Pr|apply free_many0_sep; [exact L|apply Pr]|apply Pr].
  - apply again_cache, again_name, again_attempt, r_spaced, free_again, free_map, free_and; [apply Pr|]. apply free_surround; [apply Pr|apply free_many1_sep; [|apply Pr]|apply Pr].
    apply free_map, free_and; [apply free_skip_right; apply Pr|exact L].
  - apply again_cache, again_name, r_spaced, free_again, free_map, free_surround; [apply Pr|apply free_many0_sep; [exact L|apply Pr]|apply Pr].
  - apply again_cache, again_prim.
  - apply again_cache, again_prim.
Qed.
Lemma r_expression_fuel : forall n, Again false (s_expression_fuel nd n) (expression_fuel nd n).
Proof. induction n as [|n IH]; [apply again_prim|]. cbn [s_expression_fuel expression_fuel]. apply r_expression_of; [now apply r_primary|apply c_primary]. Qed.
(** The fuel [k] may be more than the length of the text: one object is then good for all texts that are not longer. *)
Variable k : nat.
Hypothesis Hk : length inp <= k.
Lemma w_expression : Again false (s_expression nd k) (expression nd).
Proof. apply again_ext with (expression_fuel nd (S k)); [intros off; apply ToysParseSound.expression_enough; lia|apply r_expression_fuel]. Qed.
Lemma r_block : forall l p, Again false l p -> Again false (s_block l) (block p).
Proof.
  intros l p H. apply again_cache, again_name, r_spaced, free_again, free_map, free_surround; [apply free_prim|apply free_many0; exact (again_new H)|apply free_prim].
Qed.
Lemma w_line_of : forall l p, Again false l p -> Again false (s_line_of nd k l) (line_of nd p).
Proof.
  intros l p H. assert (L : Free (s_lazy l) (p_lazy (fun _ => p))) by exact (again_new H).
  assert (E : Free (s_lazy (s_expression nd k)) (p_lazy (fun _ => expression nd))) by exact (again_new w_expression).
  assert (Pr : forall A (q : parser N A), Free (s_prim q) q) by (intros; apply free_prim). pose proof w_expression as X.
  assert (Pf : forall A (q : parser N A), Again false (s_prim q) q) by (intros; apply again_prim).
  apply again_cache, again_name, r_spaced. repeat apply again_or.
  - apply again_cache, again_name, again_attempt, r_spaced, free_again, free_map, free_skip_right; [|apply Pr]. apply free_skip_left; [apply Pr|]. apply free_surround; [apply Pr|exact E|apply Pr].
  - apply again_lazy, again_cache, again_name, again_attempt, r_spaced, free_again, free_map, free_and; [|exact L]. apply free_skip_left; [apply Pr|]. apply free_surround; [apply Pr|exact E|apply Pr].
  - apply again_lazy, again_cache, again_name, again_attempt, r_spaced, again_map, again_and.
    + apply again_and; [|exact H]. apply again_skip_right; [|apply Pf]. apply again_skip_left; [|exact X]. apply again_skip_left; apply Pf.
    + apply again_opt, again_skip_left; [apply Pf|exact H].
  - apply again_lazy, again_cache, again_name, again_attempt, r_spaced, again_map, again_and; [|now apply free_again]. apply again_skip_left; [apply Pf|].
    apply again_skip_right; [apply again_skip_right; [|apply Pf]|apply Pf]. apply again_and; [|exact X]. apply again_skip_right; [|apply Pf]. apply again_and; [|exact X].
    apply again_skip_right; [apply again_skip_left; apply Pf|apply Pf].
  - apply again_cache, again_name, again_attempt, r_spaced, again_map, again_skip_right; [|apply Pf]. apply again_and; [apply again_skip_right; apply Pf|exact X].
  - apply again_cache, again_name, again_attempt, again_skip_right; [exact X|apply Pf].
  - now apply r_block.
Qed.
Lemma w_line_fuel : forall n, Again false (s_line_fuel nd k n) (line_fuel nd n).
Proof. induction n as [|n IH]; [apply again_prim|]. cbn [s_line_fuel line_fuel]. now apply w_line_of. Qed.
(** So it is for lines, too, when [nd] is right about the ASCII digits (ToysParseSound.line_enough). *)
Hypothesis Hl : forall off, line_fuel nd (S k) inp off = line nd inp off.
Lemma w_line : Again false (s_line nd k) (line nd).
Proof. apply again_ext with (line_fuel nd (S k)); [exact Hl|apply w_line_fuel]. Qed.
Lemma w_lines : Again false (s_lines nd k) (lines nd).
Proof.
  apply again_skip_right; [|apply again_prim]. apply again_skip_right; [|apply again_prim]. apply again_rep; [apply w_line|right; apply c_line].
Qed.
Lemma w_program : Again false (s_program nd k) (program nd).
Proof.
  apply again_skip_left; [apply again_prim|]. apply again_map, again_rep; [|right; apply c_top]. apply again_name, again_or.
  - apply again_cache, again_name, r_spaced, again_map, again_skip_right; [|apply again_prim]. apply again_and; [apply again_prim|apply w_expression].
  - apply again_cache, again_name, r_spaced, again_map, again_and; [apply again_prim|apply r_block, w_line].
Qed.
End Toys.

Section Bench.
Variable F : Type.
Variable f64_parse : list N -> F + unit.
Variable lossy : list N -> list N.
Variable bytes : bool.
Variable a : nat -> nat.
Variable inp : list N.
Notation Again := (Again a inp).
Lemma r_b_string : Again false (s_b_string lossy bytes) (b_string lossy bytes).
Proof.
  unfold s_b_string, b_string. destruct bytes; apply again_map.
  - apply again_skip_right; [apply again_skip_left; [apply again_prim|apply again_cache, again_prim]|apply again_prim].
  - apply again_surround; [apply again_prim|apply again_cache, again_prim|apply again_prim].
Qed.
Lemma r_b_value_step : forall g v, Again false g v -> consumes 1 v -> Again false (s_b_value_step f64_parse lossy bytes g) (b_value_step f64_parse lossy bytes v).
Proof.
  intros g v H C. assert (V : Again true (s_cache (s_lazy g)) (p_lazy (fun _ => v))) by (apply again_cache, again_lazy; exact H).
  assert (Pf : forall nz A (q : parser N A), Again nz (s_prim q) q) by (intros; apply again_prim).
  assert (O : forall c, consumes 1 (p_skip_right (b_elm bytes c) b_space)) by (intros c; eapply c_skip_right with (i := 1) (j := 0); [apply c_b_elm|apply c_zero|lia]).
  apply again_skip_right; [|apply Pf]. repeat apply again_or; apply again_cache; try apply Pf; apply again_map.
  - apply r_b_string.
  - apply again_skip_left1; [apply Pf|apply O|]. apply again_skip_right; [|apply Pf]. apply again_rep_sep; [exact V|apply Pf|exact (c_lazy C)|now left].
  - apply again_map, again_skip_left1; [apply Pf|apply O|]. apply again_skip_right; [|apply Pf]. apply again_rep_sep; [|apply Pf|apply c_b_member|now left].
    apply again_and; [|exact V]. repeat (apply again_skip_right; [|apply Pf]). apply again_cache, again_nz, r_b_string.
Qed.
Lemma r_b_value : forall n, Again false (s_b_value f64_parse lossy bytes n) (b_value f64_parse lossy bytes n).
Proof. induction n as [|n IH]; [apply again_prim|]. apply r_b_value_step; [exact IH|apply c_b_value]. Qed.
Lemma w_bench : forall k, (forall off, bench_fuel f64_parse lossy bytes (S k) inp off = bench_p f64_parse lossy bytes inp off) -> Again false (s_bench f64_parse lossy bytes k) (bench_p f64_parse lossy bytes).
Proof.
  intros k Hk. apply again_ext with (bench_fuel f64_parse lossy bytes (S k)); [exact Hk|].
  apply again_skip_right; [apply again_skip_left; [apply again_prim|]|apply again_prim]. apply again_cache, r_b_value.
Qed.
End Bench.
