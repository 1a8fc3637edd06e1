(** How many closures the parsers of toys/src/parsers.rs without recursion call: so many for every element of the text, plus a constant. *)
From Verif Require Import Base Core Comb Closure RepFacts LitFacts ChainFacts Hoare Runs Text Agree Json JsonSpec JsonFacts Calc CalcFacts Toys ToysSyntax ToysParse ToysParseSound
  Measure MeasureJson MeasureCount MeasureUri MeasureUriCount MeasureToys.
From Coq Require Import ZArith Lia.
Set Implicit Arguments.
Local Open Scope string_scope.
Local Open Scope nat_scope.
Local Open Scope list_scope.

Lemma wi_tspace : within 0 mt_space.
Proof. eapply wi_hoare; [apply et_space|apply h_tspace|]. intros. lia. Qed.
Lemma re_tspace : rest 2 4 mt_space.
Proof. unfold mt_space, m_discard, m_many0, m_elm_of. rest_by. Qed.
Lemma wi_tspaced : forall A j (g : mparser A), within j g -> within j (mt_spaced g).
Proof. intros A j g H. unfold mt_spaced. eapply wi_le; [apply wi_skip_right; [apply wi_skip_left; [apply wi_tspace|exact H]|apply wi_tspace]|lia]. Qed.
Lemma re_tspaced : forall A a b j (g : mparser A), within j g -> rest a b g -> rest (2 + a + 2) (S (S (4 + b) + 4)) (mt_spaced g).
Proof.
  intros A a b j g W H. unfold mt_spaced. eapply re_two; [|eapply re_two; [apply wi_tspace|apply re_tspace|exact H]|apply re_tspace].
  apply wi_skip_left; [apply wi_tspace|exact W].
Qed.
Lemma wi_ttag : forall c s, within 1 (mt_tag (c :: s)).
Proof. intros c s. apply wi_tspaced. eapply wi_le; [apply wi_tag|cbn; lia]. Qed.
Lemma sm_tag : forall s, small 1 (m_tag s).
Proof. intros s. apply sm_leaf. Qed.
Lemma re_ttag : forall s, rest 4 11 (mt_tag s).
Proof. intros s. eapply re_le; [eapply re_tspaced with (a := 0) (b := 1); [apply wi_tag|apply re_small, sm_leaf]|lia|lia]. Qed.
Lemma wi_tsym : forall c, within 1 (mt_sym c).
Proof. intros c. apply wi_tspaced, wi_elm_pred_ref. Qed.
Lemma re_tsym : forall c, rest 4 11 (mt_sym c).
Proof. intros c. eapply re_le; [eapply re_tspaced with (a := 0) (b := 1); [apply wi_elm_pred_ref|apply re_small, sm_leaf]|lia|lia]. Qed.
Lemma wi_tident : within 1 mt_ident.
Proof.
  eapply wi_hoare; [apply et_ident|apply h_ident|]. intros v s ((c & t & -> & _) & a & u & -> & _ & w & -> & _). rewrite app_length. cbn. lia.
Qed.
Lemma re_tident : rest 4 11 mt_ident.
Proof. eapply re_le; [apply re_tspaced with (a := 0) (b := 1) (j := 1); [|apply re_small, sm_leaf]|lia|lia]. eapply wi_hoare; [apply er_leaf|apply h_word|]. intros v s (-> & c & t & -> & _). cbn. lia. Qed.

Section Atoms.
Variable nd : N -> bool.
Hypothesis nd_ascii : forall x, (x < 128)%N -> (nd x = true <-> digit x).
Lemma xlev_some : forall k e s, xlev k e s -> 1 <= length s.
Proof. intros k e s H. apply xlev_ne in H. destruct s; [congruence|cbn; lia]. Qed.
Lemma wi_tinteger : within 1 (mt_integer nd).
Proof. eapply wi_hoare; [apply et_integer|apply (@h_integer nd nd_ascii)|apply xlev_some]. Qed.
Lemma re_tinteger : rest 4 15 (mt_integer nd).
Proof.
  unfold mt_integer, m_cache, m_id. eapply re_le; [apply re_one, re_one, re_tspaced with (a := 0) (b := 3) (j := 1)|lia|lia].
  - eapply wi_hoare with (Q := fun _ s => 1 <= length s); [apply er_map, er_map_res, er_leaf|eapply h_map; [apply (@h_int nd nd_ascii)|]|auto].
    intros z s (ds & (D1 & D2) & [[-> _]|[-> _]] & _); cbn; [destruct ds; [congruence|cbn; lia]|lia].
  - apply re_small. unfold m_map, m_map_res. small_by.
Qed.
Lemma wi_tbool : within 1 mt_bool_literal.
Proof. eapply wi_hoare; [apply et_bool_literal|apply h_bool|apply xlev_some]. Qed.
Lemma re_tbool : rest 4 17 mt_bool_literal.
Proof.
  unfold mt_bool_literal, m_cache, m_id. eapply re_le; [apply re_one, re_one, re_tspaced with (a := 0) (b := 5) (j := 0)|lia|lia].
  - eapply wi_le; [apply wi_map_panic, wi_or; [apply wi_attempt, wi_tag|apply wi_tag]|cbn; lia].
  - apply re_small. unfold m_map_panic, m_attempt. small_by.
Qed.
Lemma string_calls : forall inp off, cnt (snd (mt_string inp off)) = cnt (snd (mj_string false inp off)).
Proof. intros inp off. unfold mt_string, mj_string, m_map, m_one. change MeasureJson.m_elm_ref with m_elm_ref. destruct (m_surround (m_elm_ref 34) _ _ inp off) as [o m]. reflexivity. Qed.
Lemma wi_tstring : within 1 mt_string_literal.
Proof. eapply wi_hoare; [apply et_string_literal|apply h_string_literal|apply xlev_some]. Qed.
Lemma re_tstring : rest 97 6 mt_string_literal.
Proof.
  unfold mt_string_literal, m_cache, m_id. do 3 apply re_one. intros inp off L. rewrite string_calls. revert inp off L. eapply re_linear with (j := 1); [intros n; apply in_string|intros n; apply (@li_string unit (fun _ => inr tt))].
Qed.
Lemma wi_tidentifier : within 1 mt_identifier.
Proof. unfold mt_identifier, m_cache, m_id. apply wi_map, wi_name, wi_map, wi_tident. Qed.
Lemma re_tidentifier : rest 4 14 mt_identifier.
Proof. unfold mt_identifier, m_cache, m_id. do 3 apply re_one. apply re_tident. Qed.
Lemma re_mul_op : rest 8 25 mt_mul_op.
Proof. unfold mt_mul_op, m_id. do 2 apply re_one. apply (re_or (@re_tsym _) (@re_tsym _)). Qed.
Lemma wi_mul_op : within 1 mt_mul_op.
Proof. unfold mt_mul_op, m_id. apply wi_map_panic, wi_map. eapply wi_le; [apply wi_or; apply wi_tsym|cbn; lia]. Qed.
Lemma re_mod_op : rest 4 12 mt_mod_op.
Proof. unfold mt_mod_op. apply re_one, re_tsym. Qed.
Lemma wi_mod_op : within 1 mt_mod_op.
Proof. unfold mt_mod_op. apply wi_map_panic, wi_tsym. Qed.
Lemma re_add_op : rest 8 24 mt_add_op.
Proof. unfold mt_add_op. apply re_one. apply (re_or (@re_tsym _) (@re_tsym _)). Qed.
Lemma wi_add_op : within 1 mt_add_op.
Proof. unfold mt_add_op. apply wi_map_panic. eapply wi_le; [apply wi_or; apply wi_tsym|cbn; lia]. Qed.
Lemma wi_comp_tags : within 1 (m_or (m_or (m_or (m_or (m_or (m_or (m_or
        (m_attempt (m_tag (bs "&&"))) (m_attempt (m_tag (bs "||")))) (m_attempt (m_tag (bs "<="))))
        (m_attempt (m_tag (bs ">=")))) (m_attempt (m_tag (bs "<")))) (m_attempt (m_tag (bs ">"))))
        (m_attempt (m_tag (bs "!=")))) (m_tag (bs "=="))).
Proof. eapply wi_le; [repeat apply wi_or; try apply wi_attempt; apply wi_tag|cbn; lia]. Qed.
Lemma re_comp_op : rest 4 33 mt_comp_op.
Proof. unfold mt_comp_op. eapply re_le; [apply re_one, re_tspaced with (a := 0) (b := 22) (j := 1); [apply wi_comp_tags|apply re_small; unfold m_attempt; small_by]|lia|lia]. Qed.
Lemma wi_comp_op : within 1 mt_comp_op.
Proof. unfold mt_comp_op. apply wi_map_panic, wi_tspaced, wi_comp_tags. Qed.
End Atoms.
