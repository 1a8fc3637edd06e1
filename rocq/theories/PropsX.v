(** C111: the caches of the grammars change nothing. *)
From Verif Require ToysParseSound.
From Verif Require Import Base Core Comb Closure Text Json Calc Toys ToysParse Bench Cron CacheSim CacheGrammars.
Set Implicit Arguments.
Local Open Scope string_scope.
Local Open Scope nat_scope.
Local Open Scope list_scope.

(** *** Consumption *)
Ltac cons :=
  lazymatch goal with
  | |- consumes 0 _ => apply c_zero
  | |- consumes _ p_diverge => apply c_diverge
  | |- consumes _ (p_map _ _) => apply c_map; cons
  | |- consumes _ (p_map_panic _ _) => apply c_map_panic; cons
  | |- consumes _ (p_map_res _ _) => apply c_map_res; cons
  | |- consumes _ (p_attempt _) => apply c_attempt; cons
  | |- consumes _ (p_name _ _) => apply c_name; cons
  | |- consumes _ (p_collect _) => apply c_collect; cons
  | |- consumes _ (p_lazy _) => apply c_lazy; cons
  | |- consumes _ (p_or _ _) => apply c_or; cons
  | |- consumes _ (p_chain_left1 _ _) => apply c_chain; cons
  | |- consumes 1 (p_elm _) => apply c_elm
  | |- consumes 1 (p_elm_ref _) => apply c_elm_ref
  | |- consumes 1 (p_elm_of _) => apply c_elm_of
  | |- consumes 1 (p_elm_in _ _) => apply c_elm_in
  | |- consumes 1 (p_elm_pred _) => apply c_elm_pred
  | |- consumes _ (p_tag _) => apply c_tag; cbn; lia
  | |- _ => idtac
  end.
Lemma c_digit19_ref : consumes 1 p_elm_digit_1_9_ref.
Proof.
  intros inp off v n E. unfold p_elm_digit_1_9_ref, p_filter_not, p_filter in E.
  destruct (p_elm_digit_ref inp off) as [x m|e c| |] eqn:Ep; try discriminate. destruct (negb _); inv E. exact (c_pred _ _ _ Ep).
Qed.
Lemma c_digit19 : consumes 1 p_elm_digit_1_9.
Proof. exact (c_map _ c_digit19_ref). Qed.
Lemma c_log_map : forall A B k (p : parser N A) (f : outcome N A -> B), consumes k p -> consumes k (p_log_map p f).
Proof. intros A B k p f H. exact H. Qed.

(** *** crond *)
Lemma c_min : consumes 1 min_digit.
Proof. unfold min_digit. cons; [eapply c_and with (i := 1) (j := 0); [apply c_elm_in|apply c_zero|lia]|eapply c_skip_left with (i := 1) (j := 0); [apply c_elm|apply c_zero|lia]|apply c_elm_pred]. Qed.
Lemma c_hour : consumes 1 hour_digit.
Proof.
  unfold hour_digit. cons; [eapply c_and with (i := 1) (j := 0); [apply c_elm|apply c_zero|lia]|eapply c_and with (i := 1) (j := 0); [apply c_elm|apply c_zero|lia]
    |eapply c_skip_left with (i := 1) (j := 0); [apply c_elm|apply c_zero|lia]|]. apply c_log_map. cons. apply c_elm_pred.
Qed.
Lemma c_day : consumes 1 day_digit.
Proof.
  unfold day_digit. cons; [eapply c_and with (i := 1) (j := 0); [apply c_elm|apply c_zero|lia]|eapply c_and with (i := 1) (j := 0); [apply c_elm_of|apply c_zero|lia]
    |eapply c_skip_left with (i := 1) (j := 0); [apply c_elm|apply c_zero|lia]|apply c_digit19].
Qed.
Lemma c_month : consumes 1 month_digit.
Proof.
  unfold month_digit. cons; [eapply c_and with (i := 1) (j := 0); [apply c_elm|apply c_zero|lia]
    |eapply c_skip_left with (i := 1) (j := 0); [apply c_elm|apply c_zero|lia]|apply c_digit19].
Qed.
Lemma c_dow : consumes 1 dow.
Proof. unfold dow, day_of_week_text, day_of_week_digit. cbv zeta. cons. Qed.
Section Cron.
Variable a : nat -> nat.
Variable inp : list N.
Notation Faith := (Faith a inp).
Lemma f_per : forall x p, Faith false x p -> Faith false (s_per x) (per p).
Proof. intros x p H. apply faith_skip_left; [apply faith_prim|exact H]. Qed.
Lemma f_asterisk : Faith false s_asterisk asterisk.
Proof. apply faith_cache, faith_prim. Qed.
Lemma f_crange : forall x p, Faith false x p -> Faith false (s_crange x) (crange p).
Proof.
  intros x p H. apply faith_attempt, faith_map, faith_and; [apply faith_and; [apply faith_skip_right; [exact H|apply faith_prim]|exact H]|].
  apply faith_map, faith_opt, f_per, H.
Qed.
Lemma c_crange : forall p, consumes 1 p -> consumes 1 (crange p).
Proof.
  intros p H. apply c_attempt, c_map. eapply c_and with (i := 1) (j := 0); [|apply c_zero|lia]. eapply c_and with (i := 1) (j := 0); [|apply c_zero|lia].
  eapply c_skip_right with (i := 1) (j := 0); [exact H|apply c_zero|lia].
Qed.
Lemma f_digit_instruction : forall x p, Faith false x p -> consumes 1 p -> Faith false (s_digit_instruction x) (digit_instruction p).
Proof.
  intros x p H C. apply faith_or; [apply faith_or|apply f_asterisk].
  - apply faith_attempt, faith_map. apply faith_rep_sep; [apply faith_or; [now apply f_crange|exact H]|apply faith_prim|apply c_or; [now apply c_crange|exact C]|right; apply c_elm].
  - apply faith_cache, faith_attempt, faith_map, faith_and; [apply f_asterisk|now apply f_per].
Qed.
Lemma f_instruction : Faith false s_instruction instruction.
Proof.
  unfold s_instruction, instruction. apply faith_map.
  assert (D : forall A (p : parser N A), Faith false (s_cache (s_prim p)) p) by (intros A p; apply faith_cache, faith_prim).
  repeat (apply faith_and; [apply faith_skip_right; [|apply faith_prim]|]); apply f_digit_instruction;
    try apply D; auto using c_min, c_hour, c_day, c_month, c_dow. apply faith_or; apply D.
Qed.
End Cron.

(** *** toys *)
Section Toys.
Variable nd : N -> bool.
Lemma utf8_len_pos : forall x s, 1 <= utf8_len (x :: s).
Proof. intros x s. unfold utf8_len. cbn [fold_right]. unfold utf8_len_char. destruct (x <? 128)%N, (x <? 2048)%N, (x <? 65536)%N; lia. Qed.
Lemma c_regex : forall find, (forall s r, find s = Some r -> r <> []) -> consumes 1 (p_regex find).
Proof.
  intros find H inp off v n E. unfold p_regex in E. destruct (ps_input inp off) as [s|]; [|discriminate]. destruct (find s) as [r|] eqn:Er; [|discriminate]. inv E.
  apply H in Er. destruct v; [congruence|apply utf8_len_pos].
Qed.
Lemma c_spaced : forall A k (p : parser N A), consumes k p -> consumes k (spaced p).
Proof. intros A k p H. eapply c_skip_right with (i := k) (j := 0); [eapply c_skip_left with (i := 0) (j := k); [apply c_zero|exact H|lia]|apply c_zero|lia]. Qed.
Lemma c_ident : consumes 1 ident.
Proof. apply c_spaced, c_regex. intros [|x s] r E; [discriminate|]. cbn in E. destruct (ident_start x); inv E. discriminate. Qed.
Lemma c_sym : forall c, consumes 1 (t_sym c).
Proof. intros c. apply c_spaced, c_elm_ref. Qed.
Lemma c_ttag : forall k s, k <= length s -> consumes k (t_tag s).
Proof. intros k s L. now apply c_spaced, c_tag. Qed.
Lemma c_integer : consumes 1 (t_integer nd).
Proof.
  apply c_name, c_spaced, c_map, c_map_res, c_regex. intros [|x s] r E; [discriminate|]. unfold find_integer in E. destruct (x =? chr "-")%N.
  - destruct (fst (span nd s)); inv E. discriminate.
  - destruct (fst (span nd (x :: s))); inv E. discriminate.
Qed.
Lemma c_primary : forall e, consumes 1 (primary_of nd e).
Proof.
  intros e. unfold primary_of. apply c_name. repeat apply c_or.
  - apply c_map. eapply c_skip_right with (i := 1) (j := 0); [eapply c_skip_left with (i := 1) (j := 0); [apply c_ttag with (k := 1); cbn; lia|apply c_zero|lia]|apply c_zero|lia].
  - apply c_integer.
  - apply c_name, c_attempt, c_map. unfold string_p. apply c_map. eapply c_surround with (i := 1) (j := 0) (k := 0); [apply c_elm_ref|apply c_zero|apply c_zero|lia].
  - apply c_name, c_attempt, c_spaced, c_map. eapply c_and with (i := 1) (j := 0); [apply c_ident|apply c_zero|lia].
  - apply c_name, c_attempt, c_spaced, c_map. eapply c_and with (i := 1) (j := 0); [apply c_ident|apply c_zero|lia].
  - apply c_name, c_spaced, c_map. eapply c_surround with (i := 1) (j := 0) (k := 0); [apply c_ttag with (k := 1); cbn; lia|apply c_zero|apply c_zero|lia].
  - apply c_name, c_spaced, c_map_panic. cons.
  - apply c_name, c_map, c_ident.
Qed.
Lemma c_expression_fuel : forall n, consumes 1 (expression_fuel nd n).
Proof. intros [|n]; [apply c_diverge|]. cbn [expression_fuel]. unfold expression_of, comparative, t_additive, t_moditive, t_multitive. cons. apply c_primary. Qed.
Lemma c_expression : consumes 1 (expression nd).
Proof. intros inp off v n E. exact (c_expression_fuel _ _ _ E). Qed.
Lemma c_block : forall l, consumes 2 (block l).
Proof. intros l. apply c_name, c_spaced, c_map. eapply c_surround with (i := 1) (j := 0) (k := 1); [apply c_ttag; cbn; lia|apply c_zero|apply c_ttag; cbn; lia|lia]. Qed.
Lemma c_line_of : forall l, consumes 2 (line_of nd l).
Proof.
  intros l. apply c_name, c_spaced. repeat apply c_or.
  - apply c_name, c_attempt, c_spaced, c_map. eapply c_skip_right with (i := 2) (j := 0); [eapply c_skip_left with (i := 2) (j := 0); [apply c_tag; cbn; lia|apply c_zero|lia]|apply c_zero|lia].
  - apply c_lazy, c_name, c_attempt, c_spaced, c_map. eapply c_and with (i := 2) (j := 0); [|apply c_zero|lia]. eapply c_skip_left with (i := 2) (j := 0); [apply c_ttag; cbn; lia|apply c_zero|lia].
  - apply c_lazy, c_name, c_attempt, c_spaced, c_map. eapply c_and with (i := 2) (j := 0); [|apply c_zero|lia]. eapply c_and with (i := 2) (j := 0); [|apply c_zero|lia].
    eapply c_skip_right with (i := 2) (j := 0); [|apply c_zero|lia]. eapply c_skip_left with (i := 2) (j := 0); [|apply c_zero|lia]. eapply c_skip_left with (i := 2) (j := 0); [|apply c_zero|lia].
    eapply c_skip_right with (i := 2) (j := 0); [apply c_tag; cbn; lia|apply c_zero|lia].
  - apply c_lazy, c_name, c_attempt, c_spaced, c_map. eapply c_and with (i := 2) (j := 0); [|apply c_zero|lia]. eapply c_skip_left with (i := 2) (j := 0); [|apply c_zero|lia].
    eapply c_skip_right with (i := 2) (j := 0); [apply c_tag; cbn; lia|apply c_zero|lia].
  - apply c_name, c_attempt, c_spaced, c_map. eapply c_skip_right with (i := 2) (j := 0); [|apply c_zero|lia]. eapply c_and with (i := 2) (j := 0); [|apply c_zero|lia].
    eapply c_skip_right with (i := 1) (j := 1); [apply c_ident|apply c_ttag; cbn; lia|lia].
  - apply c_name, c_attempt. eapply c_skip_right with (i := 1) (j := 1); [apply c_expression|apply c_ttag; cbn; lia|lia].
  - apply c_block.
Qed.
Lemma c_line : consumes 2 (line nd).
Proof. intros inp off v n E. exact (@c_line_of (line_fuel nd (length inp)) _ _ _ _ E). Qed.
Lemma c_top : consumes 2 (top_level_definition nd).
Proof.
  apply c_name, c_or; apply c_name, c_spaced, c_map.
  - eapply c_skip_right with (i := 2) (j := 0); [|apply c_zero|lia]. eapply c_and with (i := 2) (j := 0); [|apply c_zero|lia]. eapply c_skip_right with (i := 2) (j := 0); [|apply c_zero|lia].
    eapply c_skip_left with (i := 2) (j := 0); [apply c_ttag; cbn; lia|apply c_zero|lia].
  - eapply c_and with (i := 0) (j := 2); [apply c_zero|apply c_block|lia].
Qed.

Variable a : nat -> nat.
Variable inp : list N.
Notation Faith := (Faith a inp).
Notation Free := (Free a inp).
Lemma f_spaced : forall A (g : sobj A) p, Faith false g p -> Faith false (s_spaced g) (spaced p).
Proof. intros A g p H. apply faith_skip_right; [apply faith_skip_left; [apply faith_prim|exact H]|apply faith_prim]. Qed.
Lemma f_expression_of : forall g p, Faith false g p -> consumes 1 p -> Faith false (s_expression_of g) (expression_of p).
Proof.
  intros g p H C. apply faith_cache, faith_name, faith_cache, faith_name, faith_chain; [|apply faith_prim| |].
  - apply faith_cache, faith_name, faith_chain; [|apply faith_prim| |apply c_map_panic, c_or; apply c_sym].
    + apply faith_cache, faith_name, faith_chain; [|apply faith_prim| |apply c_map_panic, c_sym].
      * apply faith_cache, faith_name, faith_chain; [exact H|apply faith_prim|exact C|apply c_map_panic, c_or; apply c_sym].
      * unfold t_multitive. cons. exact C.
    + unfold t_moditive, t_multitive. cons. exact C.
  - unfold t_additive, t_moditive, t_multitive. cons. exact C.
  - apply c_map_panic, c_spaced. cons.
Qed.
Lemma f_primary : forall e p, Faith false e p -> Faith false (s_primary_of nd e) (primary_of nd p).
Proof.
  intros e p H. assert (L : Free (s_lazy e) (p_lazy (fun _ => p))) by exact (free_lazy H). assert (Pr : forall A (q : parser N A), Free (s_prim q) q) by (intros; apply free_prim).
  apply faith_cache, faith_name, faith_cache. repeat apply faith_or.
  - apply free_faith, free_map, free_skip_right; [apply free_skip_left; [apply Pr|exact L]|apply Pr].
  - apply faith_cache, faith_prim.
  - apply faith_cache, faith_prim.
  - apply faith_cache, faith_name, faith_attempt, f_spaced, free_faith, free_map, free_and; [apply Pr|]. apply free_surround; [apply Pr|apply free_many0_sep; [exact L|apply Pr]|apply Pr].
  - apply faith_cache, faith_name, faith_attempt, f_spaced, free_faith, free_map, free_and; [apply Pr|]. apply free_surround; [apply Pr|apply free_many1_sep; [|apply Pr]|apply Pr].
    apply free_map, free_and; [apply free_skip_right; apply Pr|exact L].
  - apply faith_cache, faith_name, f_spaced, free_faith, free_map, free_surround; [apply Pr|apply free_many0_sep; [exact L|apply Pr]|apply Pr].
  - apply faith_cache, faith_prim.
  - apply faith_cache, faith_prim.
Qed.
Lemma f_expression_fuel : forall n, Faith false (s_expression_fuel nd n) (expression_fuel nd n).
Proof. induction n as [|n IH]; [apply faith_prim|]. cbn [s_expression_fuel expression_fuel]. apply f_expression_of; [now apply f_primary|apply c_primary]. Qed.
(** The fuel [k] may be more than the length of the text: one object is then good for all texts that are not longer. *)
Variable k : nat.
Hypothesis Hk : length inp <= k.
Lemma k_expression : Faith false (s_expression nd k) (expression nd).
Proof. apply faith_ext with (expression_fuel nd (S k)); [intros off; apply ToysParseSound.expression_enough; lia|apply f_expression_fuel]. Qed.
Lemma f_block : forall l p, Faith false l p -> Faith false (s_block l) (block p).
Proof.
  intros l p H. apply faith_cache, faith_name, f_spaced, free_faith, free_map, free_surround; [apply free_prim|apply free_many0; exact (free_lazy H)|apply free_prim].
Qed.
Lemma k_line_of : forall l p, Faith false l p -> Faith false (s_line_of nd k l) (line_of nd p).
Proof.
  intros l p H. assert (L : Free (s_lazy l) (p_lazy (fun _ => p))) by exact (free_lazy H).
  assert (E : Free (s_lazy (s_expression nd k)) (p_lazy (fun _ => expression nd))) by exact (free_lazy k_expression).
  assert (Pr : forall A (q : parser N A), Free (s_prim q) q) by (intros; apply free_prim). pose proof k_expression as X.
  assert (Pf : forall A (q : parser N A), Faith false (s_prim q) q) by (intros; apply faith_prim).
  apply faith_cache, faith_name, f_spaced. repeat apply faith_or.
  - apply faith_cache, faith_name, faith_attempt, f_spaced, free_faith, free_map, free_skip_right; [|apply Pr]. apply free_skip_left; [apply Pr|]. apply free_surround; [apply Pr|exact E|apply Pr].
  - apply faith_lazy, faith_cache, faith_name, faith_attempt, f_spaced, free_faith, free_map, free_and; [|exact L]. apply free_skip_left; [apply Pr|]. apply free_surround; [apply Pr|exact E|apply Pr].
  - apply faith_lazy, faith_cache, faith_name, faith_attempt, f_spaced, faith_map, faith_and.
    + apply faith_and; [|exact H]. apply faith_skip_right; [|apply Pf]. apply faith_skip_left; [|exact X]. apply faith_skip_left; apply Pf.
    + apply faith_opt, faith_skip_left; [apply Pf|exact H].
  - apply faith_lazy, faith_cache, faith_name, faith_attempt, f_spaced, faith_map, faith_and; [|now apply free_faith]. apply faith_skip_left; [apply Pf|].
    apply faith_skip_right; [apply faith_skip_right; [|apply Pf]|apply Pf]. apply faith_and; [|exact X]. apply faith_skip_right; [|apply Pf]. apply faith_and; [|exact X].
    apply faith_skip_right; [apply faith_skip_left; apply Pf|apply Pf].
  - apply faith_cache, faith_name, faith_attempt, f_spaced, faith_map, faith_skip_right; [|apply Pf]. apply faith_and; [apply faith_skip_right; apply Pf|exact X].
  - apply faith_cache, faith_name, faith_attempt, faith_skip_right; [exact X|apply Pf].
  - now apply f_block.
Qed.
Lemma k_line_fuel : forall n, Faith false (s_line_fuel nd k n) (line_fuel nd n).
Proof. induction n as [|n IH]; [apply faith_prim|]. cbn [s_line_fuel line_fuel]. now apply k_line_of. Qed.
(** So it is for lines, too, when [nd] is right about the ASCII digits (ToysParseSound.line_enough). *)
Hypothesis Hl : forall off, line_fuel nd (S k) inp off = line nd inp off.
Lemma k_line : Faith false (s_line nd k) (line nd).
Proof. apply faith_ext with (line_fuel nd (S k)); [exact Hl|apply k_line_fuel]. Qed.
Lemma k_lines : Faith false (s_lines nd k) (lines nd).
Proof.
  apply faith_skip_right; [|apply faith_prim]. apply faith_skip_right; [|apply faith_prim]. apply faith_rep; [apply k_line|right; apply c_line].
Qed.
Lemma k_program : Faith false (s_program nd k) (program nd).
Proof.
  apply faith_skip_left; [apply faith_prim|]. apply faith_map, faith_rep; [|right; apply c_top]. apply faith_name, faith_or.
  - apply faith_cache, faith_name, f_spaced, faith_map, faith_skip_right; [|apply faith_prim]. apply faith_and; [apply faith_prim|apply k_expression].
  - apply faith_cache, faith_name, f_spaced, faith_map, faith_and; [apply faith_prim|apply f_block, k_line].
Qed.
End Toys.
Lemma f_expression : forall nd a inp, Faith a inp false (s_expression nd (length inp)) (expression nd).
Proof. intros nd a inp. now apply k_expression. Qed.
Lemma f_line_fuel : forall nd a inp n, Faith a inp false (s_line_fuel nd (length inp) n) (line_fuel nd n).
Proof. intros nd a inp n. now apply k_line_fuel. Qed.


(** *** The benchmark *)
Section Bench.
Variable F : Type.
Variable f64_parse : list N -> F + unit.
Variable lossy : list N -> list N.
Variable bytes : bool.
Lemma c_b_elm : forall c, consumes 1 (b_elm bytes c).
Proof. intros c. unfold b_elm. destruct bytes; [apply c_elm|apply c_elm_ref]. Qed.
Lemma c_b_string : consumes 1 (b_string lossy bytes).
Proof.
  unfold b_string. destruct bytes.
  - apply c_map. eapply c_skip_right with (i := 1) (j := 0); [|apply c_zero|lia]. eapply c_skip_left with (i := 1) (j := 0); [apply c_elm|apply c_zero|lia].
  - apply c_map. eapply c_surround with (i := 1) (j := 0) (k := 0); [apply c_elm_ref|apply c_zero|apply c_zero|lia].
Qed.
Lemma seq_loop_len : forall whole input off s rest i v n, seq_loop N.eqb whole input off s rest i = Success v n -> n = i + length s.
Proof.
  intros whole input off s. induction s as [|c s IH]; intros rest i v n E; cbn [seq_loop] in E; [inv E; cbn; lia|].
  destruct rest as [|x rest]; [discriminate|]. destruct (N.eqb c x); cbn [negb] in E; [|discriminate]. apply IH in E. cbn [length]. lia.
Qed.
Lemma c_lit : forall s, 1 <= length s -> consumes 1 (b_lit bytes s).
Proof.
  intros s L. unfold b_lit, lit. destruct bytes; [|now apply c_tag]. intros inp off v n E. unfold p_seqN, p_seq in E. destruct (ps_input inp off); [|discriminate].
  apply seq_loop_len in E. lia.
Qed.
Lemma c_b_number : consumes 1 (b_number f64_parse bytes).
Proof.
  unfold b_number. destruct bytes.
  - apply c_map_panic, c_collect. eapply c_and with (i := 1) (j := 0); [|apply c_zero|lia]. eapply c_and with (i := 1) (j := 0); [|apply c_zero|lia].
    eapply c_and with (i := 0) (j := 1); [apply c_zero| |lia]. apply c_or; [|apply c_elm]. eapply c_skip_right with (i := 1) (j := 0); [apply c_elm_pred|apply c_zero|lia].
  - apply c_map_res, c_collect. eapply c_and with (i := 1) (j := 0); [|apply c_zero|lia]. eapply c_and with (i := 1) (j := 0); [|apply c_zero|lia].
    eapply c_and with (i := 0) (j := 1); [apply c_zero| |lia]. apply c_or; [|apply c_elm_ref]. eapply c_skip_right with (i := 1) (j := 0); [apply c_digit19_ref|apply c_zero|lia].
Qed.
Lemma c_b_value_step : forall v, consumes 1 (b_value_step f64_parse lossy bytes v).
Proof.
  intros v. eapply c_skip_right with (i := 1) (j := 0); [|apply c_zero|lia]. repeat apply c_or; apply c_map.
  - apply c_b_string.
  - apply c_b_number.
  - apply c_or; apply c_map, c_lit; cbn; lia.
  - apply c_lit; cbn; lia.
  - eapply c_surround with (i := 1) (j := 0) (k := 0); [|apply c_zero|apply c_zero|lia]. eapply c_skip_right with (i := 1) (j := 0); [apply c_b_elm|apply c_zero|lia].
  - apply c_map. eapply c_surround with (i := 1) (j := 0) (k := 0); [|apply c_zero|apply c_zero|lia]. eapply c_skip_right with (i := 1) (j := 0); [apply c_b_elm|apply c_zero|lia].
Qed.
Lemma c_b_value : forall n, consumes 1 (b_value f64_parse lossy bytes n).
Proof. intros [|n]; [apply c_diverge|apply c_b_value_step]. Qed.
Lemma c_b_member : forall (v : parser N (json F)), consumes 1 (b_member lossy bytes v).
Proof.
  intros v. eapply c_and with (i := 1) (j := 0); [|apply c_zero|lia]. eapply c_skip_right with (i := 1) (j := 0); [|apply c_zero|lia].
  eapply c_skip_right with (i := 1) (j := 0); [|apply c_zero|lia]. eapply c_skip_right with (i := 1) (j := 0); [apply c_b_string|apply c_zero|lia].
Qed.
Variable a : nat -> nat.
Variable inp : list N.
Notation Faith := (Faith a inp).
Lemma f_b_string : Faith false (s_b_string lossy bytes) (b_string lossy bytes).
Proof.
  unfold s_b_string, b_string. destruct bytes; apply faith_map.
  - apply faith_skip_right; [apply faith_skip_left; [apply faith_prim|apply faith_cache, faith_prim]|apply faith_prim].
  - apply faith_surround; [apply faith_prim|apply faith_cache, faith_prim|apply faith_prim].
Qed.
Lemma f_b_value_step : forall g v, Faith false g v -> consumes 1 v -> Faith false (s_b_value_step f64_parse lossy bytes g) (b_value_step f64_parse lossy bytes v).
Proof.
  intros g v H C. assert (V : Faith true (s_cache (s_lazy g)) (p_lazy (fun _ => v))) by (apply faith_cache, faith_lazy; exact H).
  assert (Pf : forall nz A (q : parser N A), Faith nz (s_prim q) q) by (intros; apply faith_prim).
  assert (O : forall c, consumes 1 (p_skip_right (b_elm bytes c) b_space)) by (intros c; eapply c_skip_right with (i := 1) (j := 0); [apply c_b_elm|apply c_zero|lia]).
  apply faith_skip_right; [|apply Pf]. repeat apply faith_or; apply faith_cache; try apply Pf; apply faith_map.
  - apply f_b_string.
  - apply faith_skip_left1; [apply Pf|apply O|]. apply faith_skip_right; [|apply Pf]. apply faith_rep_sep; [exact V|apply Pf|exact (c_lazy C)|now left].
  - apply faith_map, faith_skip_left1; [apply Pf|apply O|]. apply faith_skip_right; [|apply Pf]. apply faith_rep_sep; [|apply Pf|apply c_b_member|now left].
    apply faith_and; [|exact V]. repeat (apply faith_skip_right; [|apply Pf]). apply faith_cache, faith_nz, f_b_string.
Qed.
Lemma f_b_value : forall n, Faith false (s_b_value f64_parse lossy bytes n) (b_value f64_parse lossy bytes n).
Proof. induction n as [|n IH]; [apply faith_prim|]. apply f_b_value_step; [exact IH|apply c_b_value]. Qed.
Lemma k_bench : forall k, (forall off, bench_fuel f64_parse lossy bytes (S k) inp off = bench_p f64_parse lossy bytes inp off) -> Faith false (s_bench f64_parse lossy bytes k) (bench_p f64_parse lossy bytes).
Proof.
  intros k Hk. apply faith_ext with (bench_fuel f64_parse lossy bytes (S k)); [exact Hk|].
  apply faith_skip_right; [apply faith_skip_left; [apply faith_prim|]|apply faith_prim]. apply faith_cache, f_b_value.
Qed.
End Bench.

(** *** The properties *)
(** C111: for every choice [a] of the addresses of the parse states, every input is parsed by the objects with caches as by the parsers without. *)
Theorem C111_cron : forall a input, s_cron_parse a input = cron_parse input.
Proof. intros a input. apply faith_run, faith_skip_right; [apply f_instruction|apply faith_prim]. Qed.
Theorem C111_toys_program : forall nd a input, s_parse (s_program nd (length input)) a input = parse (program nd) input.
Proof. intros nd a input. now apply faith_run, k_program. Qed.
Theorem C111_toys_lines : forall nd a input, s_parse (s_lines nd (length input)) a input = parse (lines nd) input.
Proof. intros nd a input. now apply faith_run, k_lines. Qed.
Theorem C111_bench : forall F (f64_parse : list N -> F + unit) lossy bytes a text,
  s_parse (s_bench f64_parse lossy bytes (length text)) a text = parse (bench_p f64_parse lossy bytes) text.
Proof. intros F f64_parse lossy bytes a text. now apply faith_run, k_bench. Qed.
(** All states at one address: the keys of a cache are then the offsets, those of 0 and 1 being equal. *)
Example C111_example :
  s_cron_parse (fun _ => 7) (bs "1-5/2,9 */2 * 1 L") =
    Success (Cron (ListExpr [RangeExpr (ValueExpr 1) (ValueExpr 5) (ValueExpr 2); ValueExpr 9]) (PerExpr AnyValueExpr (ValueExpr 2)) AnyValueExpr (ValueExpr 1) LastValueExpr) 17 /\
  (let text := bs "x=1;y=x+2*x;" in
   s_parse (s_lines is_ascii_digit (length text)) (fun _ => 7) text =
     Success [EAssign (bs "x") (EInt 1); EAssign (bs "y") (EBin OAdd (ESymbol (bs "x")) (EBin OMul (EInt 2) (ESymbol (bs "x"))))] 12) /\
  (let text := bs "[[],[null,{}]]" in
   s_parse (s_bench (fun _ => inr tt) (fun s => s) true (length text)) (fun _ => 7) text =
     Success (JArray [JArray []; JArray [JNull unit; JObject []]]) 14).
Proof. repeat split; vm_compute; reflexivity. Qed.
(** Not every grammar is like these: a cached parser that is run at 0 and at 1 may return its first result twice. *)
Example C111_other_grammar : let p := p_elm_pred (fun _ => true) in
  s_parse (s_many0 (s_cache (s_prim p))) (fun _ => 7) (bs "ab") = Success (bs "aa") 2 /\ parse (p_many0 p) (bs "ab") = Success (bs "ab") 2.
Proof. split; vm_compute; reflexivity. Qed.
Print Assumptions C111_cron.
Print Assumptions C111_toys_program.
Print Assumptions C111_toys_lines.
Print Assumptions C111_bench.
