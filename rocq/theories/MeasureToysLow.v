(** Texts on which the calls of the toys parsers nest as deep as MeasureToysDeep.v allows: calls inside calls around a string with an escape. *)
From Verif Require Import Base Core Comb Closure RepFacts LitFacts ChainFacts Hoare Runs ChainRules Text Agree Json JsonSpec JsonFacts Calc CalcFacts Toys ToysSyntax ToysParse ToysParseSound ToysParseComplete
  Measure MeasureJson MeasureUri MeasureMarks MeasureToys MeasureToysDeep.
From Coq Require Import ZArith Lia.
Set Implicit Arguments.
Local Open Scope string_scope.
Local Open Scope nat_scope.
Local Open Scope list_scope.

(** ** Lower bounds, from one call inside *)
Definition reach {A} (k : nat) (g : mparser A) (inp : list N) (off : nat) : Prop := k <= hgt (snd (g inp off)).
Lemma lo_leaf : forall A (p : parser N A) inp off, reach 1 (m_leaf p) inp off.
Proof. intros. apply le_n. Qed.
Lemma lo_one : forall A B (f : parser N A -> parser N B) k g inp off, reach k g inp off -> reach (S k) (m_one f g) inp off.
Proof. intros A B f k g inp off H. unfold reach, m_one in *. destruct (g inp off) as [o m]. cbn in *. lia. Qed.
Lemma lo_first : forall A B C (f : parser N A -> parser N B -> parser N C) k g h inp off, reach k g inp off -> reach (S k) (m_two f g h) inp off.
Proof.
  intros A B C f k g h inp off H. unfold reach, m_two in *. destruct (g inp off) as [[x n|e c| |] m]; cbn [snd up hgt] in *; try lia. destruct (h inp (off + n)). cbn in *. lia.
Qed.
Lemma lo_second : forall A B C (f : parser N A -> parser N B -> parser N C) k g h inp off x n, fst (g inp off) = Success x n -> reach k h inp (off + n) -> reach (S k) (m_two f g h) inp off.
Proof. intros A B C f k g h inp off x n E H. unfold reach, m_two in *. destruct (g inp off) as [o m]. cbn [fst] in E. subst o. destruct (h inp (off + n)). cbn in *. lia. Qed.
Lemma lo_or1 : forall A k (g h : mparser A) inp off, reach k g inp off -> reach (S k) (m_or g h) inp off.
Proof. intros A k g h inp off H. unfold reach, m_or in *. destruct (g inp off) as [[x n|e [|]| |] m]; cbn [snd up hgt] in *; try lia. destruct (h inp off). cbn in *. lia. Qed.
Lemma lo_or2 : forall A k (g h : mparser A) inp off e, fst (g inp off) = Failure e false -> reach k h inp off -> reach (S k) (m_or g h) inp off.
Proof. intros A k g h inp off e E H. unfold reach, m_or in *. destruct (g inp off) as [o m]. cbn [fst] in E. subst o. destruct (h inp off). cbn in *. lia. Qed.
Lemma loop_grows : forall A B (g : mparser A) (s : option (mparser B)) fuel rend inp cur items all m, hgt m <= hgt (snd (m_loop fuel g s rend inp cur items all m)).
Proof.
  intros A B g s. induction fuel as [|fuel IH]; intros rend inp cur items all m; cbn [m_loop]; [apply le_n|]. destruct (rep_stop rend (length items)); [apply le_n|].
  assert (E : forall cur all m, hgt m <= hgt (snd (let '(o, m1) := g inp cur in
      match o with
      | Success v n => m_loop fuel g s rend inp (cur + n) (v :: items) (all + n) (both m m1)
      | Failure _ _ => (RDone (rev items) all, both m m1)
      | Panic => (RPanic, both m m1)
      | Diverge => (RDiverge, both m m1)
      end))).
  { intros c a m0. destruct (g inp c) as [[v n|e d| |] m1]; cbn [snd both hgt]; try lia. etransitivity; [|apply IH]. cbn [both hgt]. lia. }
  destruct s as [h|]; [|apply E]. destruct (h inp cur) as [[v n|e d| |] m1]; cbn [snd both hgt]; try lia. etransitivity; [|apply E]. cbn [both hgt]. lia.
Qed.
Lemma lo_rep : forall A B k (g : mparser A) r (s : option (mparser B)) inp off, reach k g inp off -> reach (S k) (m_rep g r s) inp off.
Proof.
  intros A B k g r s inp off H. unfold reach, m_rep in *. destruct (g inp off) as [[x n|e c| |] m]; cbn [snd up hgt] in *; try lia.
  pose proof (@loop_grows A B g s (rep_fuel (rg_end r) inp off) (rg_end r) inp (off + n) [x] n m) as L. destruct (m_loop _ g s _ inp (off + n) [x] n m) as [d m']. cbn in *. lia.
Qed.
Lemma lo_chain : forall A k (g : mparser A) h inp off, reach k g inp off -> reach (S k) (m_chain_left1 g h) inp off.
Proof.
  intros A k g h inp off H. unfold reach, m_chain_left1 in *. destruct (g inp off) as [[x n|e c| |] m]; cbn [snd up hgt] in *; try lia. destruct (m_rest _ g h x inp (off + n)). cbn in *. lia.
Qed.
Lemma lo_acc : forall A B C (f : parser N A -> parser N B -> parser N C) k g p h pre s rest v, erases g p -> acc p s rest v -> reach k h (pre ++ s ++ rest) (length pre + length s) ->
  reach (S k) (m_two f g h) (pre ++ s ++ rest) (length pre).
Proof. intros A B C f k g p h pre s rest v E H R. eapply lo_second; [rewrite (E _ _); apply H|exact R]. Qed.
Lemma lo_rej : forall A k (g h : mparser A) p pre l, erases g p -> rej p l false -> reach k h (pre ++ l) (length pre) -> reach (S k) (m_or g h) (pre ++ l) (length pre).
Proof. intros A k g h p pre l E H R. destruct (H pre) as [e He]. eapply lo_or2; [rewrite (E _ _); exact He|exact R]. Qed.

Section Low.
Variable nd : N -> bool.
Hypothesis Hnd : forall x, (x < 128)%N -> (nd x = true <-> digit x).
Notation g := (chr "g").
Lemma solid_space : forall A (h : mparser A) k pre l, no_ws l -> reach k h (pre ++ l) (length pre) -> reach (S (S k)) (mt_spaced h) (pre ++ l) (length pre).
Proof.
  intros A h k pre l H R. unfold mt_spaced. apply lo_first. change l with ([] ++ l). eapply lo_acc; [apply et_space|apply a_tspace; [apply ws_nil|exact H]|]. cbn [length]. rewrite Nat.add_0_r. exact R.
Qed.
(** An expression that starts with a call is 33 deeper than its first argument. *)
Lemma lo_call : forall n k pre l, no_ws l -> reach k (mt_expression_fuel nd n) ((pre ++ [g; chr "("]) ++ l) (length (pre ++ [g; chr "("])) ->
  reach (33 + k) (mt_expression_fuel nd (S n)) (pre ++ g :: chr "(" :: l) (length pre).
Proof.
  intros n k pre l Hl R. cbn [mt_expression_fuel]. unfold mt_expression_of, mt_comparative, mt_additive, mt_moditive, mt_multitive. cbn [plus].
  do 4 apply lo_one. do 3 (apply lo_chain; do 2 apply lo_one). apply lo_chain. unfold mt_primary_of. do 3 apply lo_one. do 4 apply lo_or1.
  assert (W : no_ws (g :: chr "(" :: l)) by (intros K; cbn in K; lia).
  eapply lo_rej; [repeat apply er_or; [apply et_paren_expr, et_expression_fuel|apply et_integer|apply et_string_literal]| |].
  { repeat apply r_or; [apply (@r_paren _ []); [apply ws_nil|exact W|discriminate]|apply (@r_int _ Hnd []); [apply ws_nil|exact W|cbn; unfold digit; lia]|apply (@r_strlit []); [apply ws_nil|discriminate]]. }
  unfold mt_function_call. do 3 apply lo_one. apply solid_space; [exact W|]. apply lo_one. unfold m_and.
  change (g :: chr "(" :: l) with ([g] ++ [] ++ chr "(" :: l). eapply lo_acc with (s := [g]); [apply et_ident|apply (@a_ident [g] [] [] (chr "(" :: l)); [|apply ws_nil|apply ws_nil|intros K; cbn in K; lia|reflexivity]|].
  { exists g, []. split; [reflexivity|]. split; [unfold letter_; cbn; lia|constructor]. }
  unfold m_surround. cbn [app length]. change (pre ++ g :: chr "(" :: l) with (pre ++ [g] ++ chr "(" :: l). rewrite app_assoc. replace (length pre + 1) with (length (pre ++ [g])) by (rewrite app_length; reflexivity).
  change (chr "(" :: l) with ([chr "("] ++ l). eapply lo_acc; [apply et_tag|apply a_ttag0; [intros K; cbn in K; lia|exists []; split; [reflexivity|apply ws_nil]|exact Hl]|].
  apply lo_first, lo_rep, lo_one. replace (length (pre ++ [g]) + length [chr "("]) with (length (pre ++ [g; chr "("])) by (rewrite !app_length; cbn; lia).
  rewrite <- app_assoc in R. rewrite <- app_assoc. exact R.
Qed.
(** A string that starts with an escape. *)
Lemma lo_string : forall n pre l, reach 44 (mt_expression_fuel nd (S n)) (pre ++ 34%N :: 92%N :: l) (length pre).
Proof.
  intros n pre l. cbn [mt_expression_fuel]. unfold mt_expression_of, mt_comparative, mt_additive, mt_moditive, mt_multitive.
  do 4 apply lo_one. do 3 (apply lo_chain; do 2 apply lo_one). apply lo_chain. unfold mt_primary_of. do 3 apply lo_one. do 5 apply lo_or1.
  assert (W : no_ws (34%N :: 92%N :: l)) by (intros K; cbn in K; lia).
  eapply lo_rej; [apply er_or; [apply et_paren_expr, et_expression_fuel|apply et_integer]| |].
  { apply r_or; [apply (@r_paren _ []); [apply ws_nil|exact W|discriminate]|apply (@r_int _ Hnd []); [apply ws_nil|exact W|cbn; unfold digit; lia]]. }
  unfold mt_string_literal, mt_string. do 4 apply lo_one. unfold m_surround. change (34%N :: 92%N :: l) with ([34%N] ++ 92%N :: l). eapply lo_acc; [apply er_elm_ref|apply a_elm_ref|].
  apply lo_first, lo_rep, lo_or1. unfold mj_char_string. apply lo_one, lo_rep, lo_one. rewrite app_assoc. replace (length pre + length [34%N]) with (length (pre ++ [34%N])) by (rewrite app_length; reflexivity).
  eapply lo_rej; [apply er_leaf|apply r_none_ref_of; reflexivity|]. unfold mj_escape. change (92%N :: l) with ([92%N] ++ l). eapply lo_acc; [apply er_elm_ref|apply a_elm_ref|].
  unfold mj_special_char. do 7 apply lo_or1. apply lo_leaf.
Qed.

(** g(g(... then the rest *)
Fixpoint opened (d : nat) (l : list N) : list N := match d with 0 => l | S d' => g :: chr "(" :: opened d' l end.
Lemma opened_no_ws : forall d l, no_ws l -> no_ws (opened d l).
Proof. intros [|d] l H; [exact H|]. intros K. cbn in K. lia. Qed.
Lemma opened_length : forall d l, length (opened d l) = 2 * d + length l.
Proof. induction d as [|d IH]; intros l; [reflexivity|]. cbn [opened length]. rewrite IH. lia. Qed.
Lemma lo_opened : forall d n pre l, d < n -> reach (33 * d + 44) (mt_expression_fuel nd n) (pre ++ opened d (34%N :: 92%N :: l)) (length pre).
Proof.
  induction d as [|d IH]; intros n pre l H; (destruct n as [|n]; [lia|]); cbn [opened].
  - exact (lo_string n pre l).
  - replace (33 * S d + 44) with (33 + (33 * d + 44)) by lia. apply lo_call; [|apply IH; lia]. apply opened_no_ws. intros K. cbn in K. lia.
Qed.
Lemma lo_expression_fuel : forall k inp off, reach k (mt_expression_fuel nd (S (length inp))) inp off -> reach k (mt_expression nd) inp off.
Proof. intros k inp off H. unfold reach in *. unfold mt_expression. exact H. Qed.
Lemma lo_line_fuel : forall k inp off, reach k (mt_line_of nd (mt_line_fuel nd (length inp))) inp off -> reach k (mt_line nd) inp off.
Proof. intros k inp off H. unfold reach in *. unfold mt_line. exact H. Qed.
Lemma lo_expression : forall d pre l, reach (33 * d + 44) (mt_expression nd) (pre ++ opened d (34%N :: 92%N :: l)) (length pre).
Proof. intros d pre l. apply lo_expression_fuel, lo_opened. rewrite app_length, opened_length. lia. Qed.
Lemma lo_line_of : forall ln p k l, erases ln p -> no_ws l -> reach k (mt_expression nd) ([] ++ g :: chr "(" :: l) (length (@nil N)) -> reach (10 + k) (mt_line_of nd ln) ([] ++ g :: chr "(" :: l) (length (@nil N)).
Proof.
  intros ln p k l E Hl R. assert (W : ~ is_ws g) by (intros K; cbn in K; lia). cbn [plus]. unfold mt_line_of. do 2 apply lo_one. apply solid_space; [exact W|]. apply lo_or1.
  eapply lo_rej; [repeat apply er_or; [apply et_println|apply er_lazy, et_while, E|apply er_lazy, et_if, E|apply er_lazy, et_for, E|apply et_assignment]| |].
  - repeat apply r_or; [apply r_hd_println|apply r_lazy, r_hd_while|apply r_lazy, r_hd_if|apply r_lazy, r_hd_for|]; try exact W; try discriminate.
    apply (@r_assign_word _ Hnd [g] [] (chr "(" :: l)); [|apply ws_nil|intros K; cbn in K; lia|reflexivity|left; discriminate].
    exists g, []. split; [reflexivity|]. split; [unfold letter_; cbn; lia|constructor].
  - unfold mt_expression_line. do 3 apply lo_one. apply lo_first, R.
Qed.
Lemma lo_lines : forall d l, reach (33 * S d + 57) (mt_lines nd) (opened (S d) (34%N :: 92%N :: l)) 0.
Proof.
  intros d l. replace (33 * S d + 57) with (3 + (10 + (33 * S d + 44))) by lia. unfold mt_lines. do 2 apply lo_first. apply lo_rep, lo_line_fuel.
  eapply lo_line_of; [apply et_line_fuel|apply opened_no_ws; intros K; cbn in K; lia|]. exact (lo_expression (S d) [] l).
Qed.
End Low.
