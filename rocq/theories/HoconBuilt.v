(** The hocon parsers are built from the library's parsers (Closure.v); so they do not look at the text before the position
    they start at. *)
From Verif Require Import Base Core Comb Closure Shift Text Json Hocon.
Set Implicit Arguments.
Local Open Scope string_scope.
Local Open Scope nat_scope.
Local Open Scope list_scope.

Ltac bld := repeat first
  [assumption | reflexivity | apply B_lazy | apply B_attempt | apply B_or | apply B_and | apply B_skip_left | apply B_skip_right | apply B_map_panic | apply B_collect
  |apply B_map_res | apply B_discard | apply B_seq | apply B_elm_pred_ref | apply B_elm_ref_of | apply B_none_ref_of | apply B_take_till0 | apply B_filter | apply B_not
  |apply B_repeat_sep | apply B_repeat_nosep | apply B_map | apply B_successful | apply B_end].
Notation bt := (built (@no_leaf N) false true).
Lemma b_soc : bt space_or_comment.
Proof. unfold space_or_comment, comment, comment_head, comment_tail, hspace. bld. Qed.
Lemma b_spaced : forall A (p : parser N A), bt p -> bt (spaced p).
Proof. intros A p H. apply B_skip_left; [apply b_soc|apply B_skip_right; [exact H|apply b_soc]]. Qed.
Ltac bls := repeat first [progress bld | apply b_spaced].
Lemma b_path : bt path_p.
Proof. unfold path_p, path_element. bld. Qed.
Lemma b_escape : bt escape_sequence.
Proof. unfold escape_sequence. bls. Qed.
Lemma b_hstring : bt hstring.
Proof. unfold hstring, string_surround, double_quote, single_quote, hchar_string. bls. all: try (unfold utf16_string, utf16_char; bls). Qed.
Lemma b_key : bt key_p.
Proof. unfold key_p. apply b_spaced, B_or; [apply B_attempt, b_path|apply b_hstring]. Qed.
Lemma b_comma : bt comma.
Proof. unfold comma. bls. Qed.
Lemma b_reference : bt reference.
Proof. unfold reference, path_element. bls. Qed.
Section Values.
Variable D : Type.
Variable dec : list N -> option D.
Notation cv := (cv D).
Notation key := (list N).
Lemma b_number : bt (number_value dec).
Proof. unfold number_value, hnumber, hinteger, hfrac, hexp. bls. Qed.
Lemma b_duration : bt (duration_value dec).
Proof. unfold duration_value, duration, time_unit_p, unit_ns, unit_us, unit_ms, unit_s, unit_m, unit_h, unit_d, unit_of, seq_a. apply B_map, B_and; [apply b_number|bld]. Qed.
Lemma b_string : bt (@string_cv D).
Proof. unfold string_cv. apply B_map, b_hstring. Qed.
Lemma b_simple : bt (simple_cv dec).
Proof. unfold simple_cv. pose proof b_duration. pose proof b_number. pose proof b_string. bls. Qed.
Lemma b_enumeration : bt (@enumeration_cv D).
Proof. unfold enumeration_cv, reference_cv. pose proof b_string. pose proof b_reference. bls. Qed.
Lemma b_include : bt (@include_cv D).
Proof. unfold include_cv, include_method. pose proof b_path. bld. Qed.
Section Step.
Variable value : parser N cv.
Variable prop : parser N (key * cv).
Hypothesis Hv : bt value.
Hypothesis Hp : bt prop.
Lemma b_array : bt (array_cv value).
Proof. unfold array_cv. pose proof b_comma. bls. Qed.
Lemma b_object : bt (object_cv prop).
Proof. unfold object_cv. pose proof b_comma. bls. Qed.
Lemma b_property : bt (property_step value prop).
Proof. unfold property_step, kv. pose proof b_key. pose proof b_array. pose proof b_object. bls. Qed.
Lemma b_value : bt (value_step dec value prop).
Proof. unfold value_step. pose proof b_array. pose proof b_object. pose proof b_simple. pose proof b_enumeration. pose proof b_reference. unfold reference_cv. bls. Qed.
Lemma b_config : bt (config_step value prop).
Proof. unfold config_step. pose proof b_property. pose proof b_array. pose proof b_object. pose proof b_include. bls. Qed.
End Step.
Lemma b_fuel : forall n, bt (value_fuel dec n) /\ bt (property_fuel dec n).
Proof.
  induction n as [|n [H1 H2]].
  - split; apply B_diverge.
  - split; [exact (b_value H1 H2)|exact (b_property H1 H2)].
Qed.
Lemma b_hocon : forall n, bt (hocon_fuel dec n).
Proof. intros n. destruct (b_fuel n) as [H1 H2]. unfold hocon_fuel. pose proof (b_config H1 H2). pose proof b_soc. bld. Qed.
End Values.
