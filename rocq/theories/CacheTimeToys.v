(** The toys parsers with their caches call no more parsers than without. *)
From Verif Require Import PropsX.
From Verif Require Import Base Core Comb Closure Text Json Calc Toys ToysParse Measure MeasureJson MeasureUri MeasureToys CacheSim CacheGrammars CacheTime.
From Coq Require Import Lia.
Set Implicit Arguments.
Local Open Scope string_scope.
Local Open Scope nat_scope.
Local Open Scope list_scope.

Lemma j_and : forall A B, joins (@pair A B) (@p_and N A B).
Proof. intros A B p q inp off. reflexivity. Qed.
Lemma j_left : forall A B, joins (fun (_ : A) (y : B) => y) (@p_skip_left N A B).
Proof. intros A B p q inp off. reflexivity. Qed.
Lemma j_right : forall A B, joins (fun (x : A) (_ : B) => x) (@p_skip_right N A B).
Proof. intros A B p q inp off. reflexivity. Qed.

Section Toys.
Variable nd : N -> bool.
Variable a : nat -> nat.
Variable inp : list N.
Notation Timed := (Timed a inp).
Notation TFree := (TFree a inp).
Section Rules.
Variable nz : bool.
Context {A B C : Type}.
Lemma tf_map : forall (g : sobj A) m (f : A -> B), TFree g m -> TFree (s_map g f) (m_map m f).
Proof. intros g m f H. now apply tf_one. Qed.
Lemma tf_and : forall (g : sobj A) (h : sobj B) m m', TFree g m -> TFree h m' -> TFree (s_and g h) (m_and m m').
Proof. intros g h m m' H1 H2. apply tf_two; auto. apply j_and. Qed.
Lemma tf_skip_left : forall (g : sobj A) (h : sobj B) m m', TFree g m -> TFree h m' -> TFree (s_skip_left g h) (m_skip_left m m').
Proof. intros g h m m' H1 H2. apply tf_two; auto. apply j_left. Qed.
Lemma tf_skip_right : forall (g : sobj A) (h : sobj B) m m', TFree g m -> TFree h m' -> TFree (s_skip_right g h) (m_skip_right m m').
Proof. intros g h m m' H1 H2. apply tf_two; auto. apply j_right. Qed.
Lemma ti_map : forall (g : sobj A) m (f : A -> B), Timed nz g m -> Timed nz (s_map g f) (m_map m f).
Proof. intros g m f H. now apply ti_one. Qed.
Lemma ti_attempt : forall (g : sobj A) m, Timed nz g m -> Timed nz (s_attempt g) (m_attempt m).
Proof. intros g m H. now apply ti_one. Qed.
Lemma ti_name : forall (g : sobj A) m s, Timed nz g m -> Timed nz (s_name g s) (m_name m s).
Proof. intros g m s H. now apply ti_one. Qed.
Lemma ti_and : forall (g : sobj A) (h : sobj B) m m', Timed nz g m -> Timed nz h m' -> Timed nz (s_and g h) (m_and m m').
Proof. intros g h m m' H1 H2. apply ti_two; auto. apply j_and. Qed.
Lemma ti_skip_left : forall (g : sobj A) (h : sobj B) m m', Timed nz g m -> Timed nz h m' -> Timed nz (s_skip_left g h) (m_skip_left m m').
Proof. intros g h m m' H1 H2. apply ti_two; auto. apply j_left. Qed.
Lemma ti_skip_right : forall (g : sobj A) (h : sobj B) m m', Timed nz g m -> Timed nz h m' -> Timed nz (s_skip_right g h) (m_skip_right m m').
Proof. intros g h m m' H1 H2. apply ti_two; auto. apply j_right. Qed.
Lemma ti_lazy : forall (g : sobj A) m, Timed false g m -> Timed nz (s_lazy g) (m_lazy m).
Proof. intros g m H. apply tfree_timed. now apply tf_lazy. Qed.
End Rules.
Lemma tf_surround : forall A B C (g : sobj A) (h : sobj B) (k : sobj C) m m' m'', TFree g m -> TFree h m' -> TFree k m'' -> TFree (s_surround g h k) (m_surround m m' m'').
Proof. intros. apply tf_skip_left; [assumption|now apply tf_skip_right]. Qed.
Lemma ti_opt : forall nz A (g : sobj A) m, Timed nz g m -> Timed nz (s_opt g) (m_opt m).
Proof. intros nz A g m H. apply ti_or; [now apply ti_map, ti_attempt|apply ti_prim, er_leaf]. Qed.

Ltac pr := apply ti_prim; first [apply et_space | apply et_tag | apply et_ident | apply er_leaf].
Ltac fr := apply tf_prim; first [apply et_space | apply et_tag | apply et_ident | apply er_leaf].
Lemma ti_spaced : forall A (g : sobj A) m, Timed false g m -> Timed false (s_spaced g) (mt_spaced m).
Proof. intros A g m H. apply ti_skip_right; [apply ti_skip_left; [pr|exact H]|pr]. Qed.
Lemma bare_of : forall A k (m : mparser A) p, erases m p -> consumes k p -> consumes k (bare m).
Proof. intros A k m p. apply bare_takes. Qed.
Lemma er_mul : erases mt_mul_op (p_map_panic (p_or (t_sym (chr "*")) (t_sym (chr "/")))
    (fun c => if (c =? chr "*")%N then Some (EBin OMul) else if (c =? chr "/")%N then Some (EBin ODiv) else None)).
Proof. unfold mt_mul_op. apply er_map_panic, er_id, er_or; apply et_sym. Qed.
Lemma er_mod : erases mt_mod_op (p_map_panic (t_sym (chr "%")) (fun c => if (c =? chr "%")%N then Some (EBin OMod) else None)).
Proof. unfold mt_mod_op. apply er_map_panic, et_sym. Qed.
Lemma er_add : erases mt_add_op (p_map_panic (p_or (t_sym (chr "+")) (t_sym (chr "-")))
    (fun c => if (c =? chr "+")%N then Some (EBin OAdd) else if (c =? chr "-")%N then Some (EBin OSub) else None)).
Proof. unfold mt_add_op. apply er_map_panic, er_or; apply et_sym. Qed.
Lemma c_of_chain : forall A (m : mparser A) op, consumes 1 (bare m) -> consumes 1 (bare (m_chain_left1 m op)).
Proof.
  intros A m op H. apply bare_of with (p_chain_left1 (bare m) (bare op)); [apply er_chain_left1; intros i o; reflexivity|]. now apply c_chain.
Qed.
Lemma c_of_name : forall A (m : mparser A) s, consumes 1 (bare m) -> consumes 1 (bare (m_cache (m_name m s))).
Proof. intros A m s H. apply bare_of with (p_name (bare m) s); [apply er_cache, er_name; intros i o; reflexivity|]. now apply c_name. Qed.
Lemma ti_expression_of : forall g m, Timed false g m -> consumes 1 (bare m) -> Timed false (s_expression_of g) (mt_expression_of m).
Proof.
  intros g m H C. assert (C1 : consumes 1 (bare (mt_multitive m))) by (apply c_of_name, c_of_chain, C). assert (C2 : consumes 1 (bare (mt_moditive m))) by (apply c_of_name, c_of_chain, C1).
  assert (C3 : consumes 1 (bare (mt_additive m))) by (apply c_of_name, c_of_chain, C2).
  apply ti_cache, ti_name, ti_cache, ti_name, ti_chain; [|apply tf_prim, et_comp_op|exact C3|eapply bare_of; [apply et_comp_op|apply c_map_panic, c_spaced; cons]].
  apply ti_cache, ti_name, ti_chain; [|apply tf_prim, er_add|exact C2|eapply bare_of; [apply er_add|apply c_map_panic, c_or; apply c_sym]].
  apply ti_cache, ti_name, ti_chain; [|apply tf_prim, er_mod|exact C1|eapply bare_of; [apply er_mod|apply c_map_panic, c_sym]].
  apply ti_cache, ti_name, ti_chain; [exact H|apply tf_prim, er_mul|exact C|eapply bare_of; [apply er_mul|apply c_map_panic, c_or; apply c_sym]].
Qed.
Lemma ti_primary : forall e m, Timed false e m -> Timed false (s_primary_of nd e) (mt_primary_of nd m).
Proof.
  intros e m H. assert (L : TFree (s_lazy e) (m_lazy m)) by exact (tf_lazy H).
  apply ti_cache, ti_name, ti_cache. repeat apply ti_or.
  - apply tfree_timed, tf_map, tf_skip_right; [apply tf_skip_left; [fr|exact L]|fr].
  - apply ti_cache, ti_prim. unfold t_integer. apply er_name, et_spaced, er_map, er_map_res, er_leaf.
  - apply ti_cache, ti_prim. intros i o. rewrite <- (et_string_literal i o). unfold mt_string_literal, m_cache. symmetry. apply id_fst.
  - apply ti_cache, ti_name, ti_attempt, ti_spaced, tfree_timed, tf_map, tf_and; [fr|]. apply tf_surround; [fr|apply tf_rep_sep; [exact L|fr]|fr].
  - apply ti_cache, ti_name, ti_attempt, ti_spaced, tfree_timed, tf_map, tf_and; [fr|]. apply tf_surround; [fr|apply tf_rep_sep; [|fr]|fr].
    apply tf_map, tf_and; [apply tf_skip_right; fr|exact L].
  - apply ti_cache, ti_name, ti_spaced, tfree_timed, tf_map, tf_surround; [fr|apply tf_rep_sep; [exact L|fr]|fr].
  - apply ti_cache, ti_prim. intros i o. rewrite <- (et_bool_literal i o). unfold mt_bool_literal, m_cache. symmetry. apply id_fst.
  - apply ti_cache, ti_prim. apply er_name, er_map, et_ident.
Qed.
Lemma diverges : forall A, Timed false (s_prim (@p_diverge N A)) (fun _ _ => (Diverge, Meas 0 0)).
Proof. intros A. apply ti_prim. intros i o. reflexivity. Qed.
Lemma ti_expression_fuel : forall n, Timed false (s_expression_fuel nd n) (mt_expression_fuel nd n).
Proof.
  induction n as [|n IH]; [apply diverges|]. cbn [s_expression_fuel mt_expression_fuel]. apply ti_expression_of; [now apply ti_primary|].
  eapply bare_of; [apply et_primary_of, et_expression_fuel|apply c_primary].
Qed.
Lemma ti_expression : Timed false (s_expression nd (length inp)) (mt_expression nd).
Proof. apply timed_ext with (mt_expression_fuel nd (S (length inp))); [reflexivity|apply ti_expression_fuel]. Qed.
Notation k := (length inp).
Lemma ti_block : forall l m, Timed false l m -> Timed false (s_block l) (mt_block m).
Proof.
  intros l m H. apply ti_cache, ti_name, ti_spaced, tfree_timed, tf_map, tf_surround; [fr|apply tf_rep; exact (tf_lazy H)|fr].
Qed.
Lemma ti_line_of : forall l m, Timed false l m -> Timed false (s_line_of nd k l) (mt_line_of nd m).
Proof.
  intros l m H. assert (L : TFree (s_lazy l) (m_lazy m)) by exact (tf_lazy H).
  assert (E : TFree (s_lazy (s_expression nd k)) (m_lazy (mt_expression nd))) by exact (tf_lazy ti_expression). pose proof ti_expression as X.
  apply ti_cache, ti_name, ti_spaced. repeat apply ti_or.
  - apply ti_cache, ti_name, ti_attempt, ti_spaced, tfree_timed, tf_map, tf_skip_right; [|fr]. apply tf_skip_left; [fr|]. apply tf_surround; [fr|exact E|fr].
  - apply ti_lazy, ti_cache, ti_name, ti_attempt, ti_spaced, tfree_timed, tf_map, tf_and; [|exact L]. apply tf_skip_left; [fr|]. apply tf_surround; [fr|exact E|fr].
  - apply ti_lazy, ti_cache, ti_name, ti_attempt, ti_spaced, ti_map, ti_and.
    + apply ti_and; [|exact H]. apply ti_skip_right; [|pr]. apply ti_skip_left; [|exact X]. apply ti_skip_left; [apply ti_prim, er_skip_right; [apply er_leaf|apply et_space]|pr].
    + apply ti_opt, ti_skip_left; [pr|exact H].
  - apply ti_lazy, ti_cache, ti_name, ti_attempt, ti_spaced, ti_map, ti_and; [|now apply tfree_timed]. apply ti_skip_left; [apply ti_prim, er_skip_right; [apply er_leaf|apply et_space]|].
    apply ti_id. apply ti_skip_right; [apply ti_skip_right; [|pr]|pr]. apply ti_and; [|exact X]. apply ti_skip_right; [|pr]. apply ti_and; [|exact X].
    apply ti_skip_right; [apply ti_skip_left; pr|]. apply ti_prim, er_and; [apply er_and; [apply et_space|apply er_leaf]|apply et_space].
  - apply ti_cache, ti_name, ti_attempt, ti_spaced, ti_map, ti_skip_right; [|pr]. apply ti_and; [apply ti_skip_right; pr|exact X].
  - apply ti_cache, ti_name, ti_attempt, ti_skip_right; [exact X|pr].
  - now apply ti_block.
Qed.
Lemma ti_line_fuel : forall n, Timed false (s_line_fuel nd k n) (mt_line_fuel nd n).
Proof. induction n as [|n IH]; [apply diverges|]. cbn [s_line_fuel mt_line_fuel]. now apply ti_line_of. Qed.
Lemma ti_line : Timed false (s_line nd k) (mt_line nd).
Proof. apply timed_ext with (mt_line_fuel nd (S (length inp))); [reflexivity|apply ti_line_fuel]. Qed.
Lemma ti_lines : Timed false (s_lines nd k) (mt_lines nd).
Proof.
  apply ti_skip_right; [|pr]. apply ti_skip_right; [|pr]. apply ti_rep; [apply ti_line|eapply bare_of; [apply et_line|apply c_line]].
Qed.
Ltac et1 := first [match goal with |- erases (m_cache _) _ => apply er_cache end | er_step | apply er_lazy | apply er_many0_sep | apply er_leaf].
Lemma er_top : erases (mt_top_level_definition nd) (top_level_definition nd).
Proof.
  unfold mt_top_level_definition, top_level_definition, mt_global, global_variable_definition, mt_function_definition, function_definition.
  repeat first [apply et_expression | apply et_block, et_line | apply et_ident | apply et_tag | apply et_spaced | apply et_space | et1].
Qed.
Lemma ti_program : Timed false (s_program nd k) (mt_program nd).
Proof.
  apply ti_skip_left; [pr|]. apply ti_id, ti_map, ti_rep; [|eapply bare_of; [apply er_top|apply c_top]]. apply ti_name, ti_or.
  - apply ti_cache, ti_name, ti_spaced, ti_map, ti_skip_right; [|pr]. apply ti_and; [|apply ti_expression]. apply ti_prim, er_skip_right; [apply er_skip_left; [apply et_tag|apply et_ident]|apply et_tag].
  - apply ti_cache, ti_name, ti_spaced, ti_map, ti_and; [|apply ti_block, ti_line]. apply ti_prim.
    repeat first [apply et_ident | apply et_tag | apply et_space | et1].
Qed.
End Toys.
