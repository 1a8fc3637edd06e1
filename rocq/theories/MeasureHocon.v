(** The hocon parser with the nesting of its calls: hocon/src/parsers.rs as in Hocon.v, over the combinators of Measure.v.  The nesting is in
    proportion to the opening brackets of the text. *)
From Verif Require Import Base Core Comb Closure RepFacts LitFacts Hoare Runs Weak Agree Text Json JsonSpec JsonFacts Hocon HoconFacts HoconParse HoconSpec HoconComplete Measure MeasureUri.
Set Implicit Arguments.
Local Open Scope string_scope.
Local Open Scope nat_scope.
Local Open Scope list_scope.

Section Measured.
Variable D : Type.
Variable dec : list N -> option D.
Notation cv := (cv D).
Notation key := (list N).
(** ** hocon/src/parsers.rs *)
(** hocon/src/parsers.rs 13-15 *)
Definition mf_hspace : mparser (list N) := m_collect (m_many0 (m_elm_ref_of (set_contains [32; 9; 13; 10]%N))).
(** hocon/src/parsers.rs 7-11 *)
Definition mf_comment_head : mparser (list N) :=
  m_or (m_attempt (m_collect (m_seqN (bs "//")))) (m_collect (m_elm_ref (chr "#"))).
Definition mf_comment_tail : mparser (list N) := m_leaf (p_take_till0 (fun c => (c =? 13)%N || (c =? 10)%N)).
Definition mf_comment : mparser (list N) := m_collect (m_and mf_hspace (m_many1 (m_and mf_comment_head mf_comment_tail))).
(** hocon/src/parsers.rs 17-19 *)
Definition mf_space_or_comment : mparser unit := m_discard (m_or (m_attempt mf_comment) mf_hspace).
(** [x.surround(space_or_comment(), space_or_comment())], used throughout hocon/src/parsers.rs (42, 97, 101, 171-208, 242). *)
Definition mf_spaced {A} (p : mparser A) : mparser A := m_surround mf_space_or_comment p mf_space_or_comment.

(** hocon/src/parsers.rs 229-231 *)
Definition mf_path_element : mparser (list N) :=
  m_collect (m_many1 (m_or (m_elm_pred is_ascii_alpha) (m_elm_of (bs "-_")))).
(** hocon/src/parsers.rs 233-239; [m_id]: map(String::from) *)
Definition mf_path_p : mparser (list N) := m_id (m_map_res (m_collect (m_many1_sep mf_path_element (m_elm (chr ".")))) from_utf8).

(** hocon/src/parsers.rs 21-26 *)
Definition mf_include_method : mparser (list N) :=
  m_id (m_map_res (m_collect (m_or (m_seqN (bs "file")) (m_seqN (bs "url")))) from_utf8).
(** hocon/src/parsers.rs 28-31: format!("\"{}\"", path) puts the path between quotes *)
Definition mf_include_cv : mparser cv :=
  m_map (m_and (m_skip_left (m_skip_left (m_seqN (bs "include")) (m_elm 32)) mf_include_method)
               (m_surround (m_seqN (bs "(" ++ [34]%N)) mf_path_p (m_seqN ([34]%N ++ bs ")"))))
    (fun mp => CIncl (fst mp) ([34]%N ++ snd mp ++ [34]%N)).

(** hocon/src/parsers.rs 33-44; [m_id]: map(String::from), and the map that flattens the tuple *)
Definition mf_hinteger : mparser (list N) :=
  m_id (m_map_res (m_or (m_collect (m_and (m_filter_not m_elm_digit_ref is_ascii_digit_zero) (m_many0 m_elm_digit_ref))) (m_collect (m_elm_ref (chr "0")))) from_utf8).
Definition mf_hfrac : mparser (list N) :=
  m_id (m_map_res (m_collect (m_and (m_elm_ref (chr ".")) (m_many1 m_elm_digit_ref))) from_utf8).
Definition mf_hexp : mparser (list N) :=
  m_id (m_map_res (m_collect (m_and (m_and (m_elm_of (bs "eE")) (m_opt (m_elm_of (bs "+-")))) (m_many1 m_elm_digit_ref))) from_utf8).
Definition mf_hnumber : mparser (option N * list N * option (list N) * option (list N)) :=
  m_id (mf_spaced (m_and (m_and (m_and (m_opt (m_elm_ref (chr "-"))) mf_hinteger) (m_opt mf_hfrac)) (m_opt mf_hexp))).
(** hocon/src/parsers.rs 77-94; ConfigNumberValue::from(String) is config_number_value.rs 26-30 (unwrap) *)
Definition mf_number_value : mparser D := m_map_panic mf_hnumber (number_of dec).
(** hocon/src/parsers.rs 46-71 *)
Definition mf_unit_of (u : time_unit) (p : mparser (list N)) : mparser time_unit := m_map p (fun _ => u).
Definition mf_seq_a (s : string) : mparser (list N) := m_attempt (m_seqN (bs s)).
Definition mf_unit_ns := mf_unit_of UNanos
  (m_or (m_or (m_or (m_or (mf_seq_a "ns") (mf_seq_a "nano")) (mf_seq_a "nanos")) (mf_seq_a "nanosecond")) (m_seqN (bs "nanoseconds"))).
Definition mf_unit_us := mf_unit_of UMicros
  (m_or (m_or (m_or (m_or (mf_seq_a "us") (mf_seq_a "micro")) (mf_seq_a "micros")) (mf_seq_a "microsecond")) (m_seqN (bs "microseconds"))).
Definition mf_unit_ms := mf_unit_of UMillis
  (m_or (m_or (m_or (m_or (mf_seq_a "ms") (mf_seq_a "milli")) (mf_seq_a "millis")) (mf_seq_a "millisecond")) (m_seqN (bs "milliseconds"))).
Definition mf_unit_s := mf_unit_of USeconds (m_or (m_or (mf_seq_a "s") (mf_seq_a "second")) (m_seqN (bs "seconds"))).
Definition mf_unit_m := mf_unit_of UMinutes (m_or (m_or (mf_seq_a "m") (mf_seq_a "minute")) (m_seqN (bs "minutes"))).
Definition mf_unit_h := mf_unit_of UHours (m_or (m_or (mf_seq_a "h") (mf_seq_a "hour")) (m_seqN (bs "hours"))).
Definition mf_unit_d := mf_unit_of UDays (m_or (m_or (mf_seq_a "d") (mf_seq_a "day")) (m_seqN (bs "days"))).
Definition mf_time_unit_p : mparser time_unit :=
  m_or (m_or (m_or (m_or (m_or (m_or (m_attempt mf_unit_ns) (m_attempt mf_unit_us)) (m_attempt mf_unit_ms)) (m_attempt mf_unit_s))
    (m_attempt mf_unit_m)) (m_attempt mf_unit_h)) mf_unit_d.
Definition mf_duration : mparser (D * time_unit) := m_and mf_number_value mf_time_unit_p.
(** hocon/src/parsers.rs 73-75 *)
Definition mf_duration_value : mparser cv := m_map mf_duration (fun nu => CDur (fst nu) (snd nu)).

(** hocon/src/parsers.rs 96-102 *)
Definition mf_double_quote : mparser N := mf_spaced (m_elm_ref 34).
Definition mf_single_quote : mparser N := mf_spaced (m_elm_ref 39).
(** hocon/src/parsers.rs 104-133; special_char, escape_sequence, utf16_char and utf16_string *)
Definition mf_special_char : mparser N :=
  m_or (m_or (m_or (m_or (m_or (m_or (m_or (m_elm_ref 92) (m_elm_ref 47)) (m_elm_ref 34))
    (m_map (m_elm_ref (chr "b")) (fun _ => 8%N)))
    (m_map (m_elm_ref (chr "f")) (fun _ => 12%N)))
    (m_map (m_elm_ref (chr "n")) (fun _ => 10%N)))
    (m_map (m_elm_ref (chr "r")) (fun _ => 13%N)))
    (m_map (m_elm_ref (chr "t")) (fun _ => 9%N)).
Definition mf_escape_sequence : mparser N := m_skip_left (m_elm_ref 92) mf_special_char.
Definition mf_utf16_char : mparser N :=
  m_skip_left (m_leaf (lit true [92; 117]%N)) (m_map_res (m_map_res (m_count m_elm_hex_digit 4) (run_to_string true)) (parse_hex 65535)).
Definition mf_utf16_string : mparser (list N) := m_map (m_many1 mf_utf16_char) (fun us => chars_to_string true (decode_utf16 us)).
Definition mf_hchar_string : mparser (list N) :=
  m_map_res (m_many1 (m_map (m_or (m_leaf (p_none_ref_of (set_contains (bs "[]" ++ [13; 10; 92; 34; 39]%N)))) mf_escape_sequence) (fun x => x)))
    from_utf8.
Definition mf_string_surround : mparser (list (list N)) := m_many1 (m_or (m_attempt mf_hchar_string) (mf_utf16_string)).
Definition mf_hstring : mparser (list N) :=
  m_map (m_or (m_or (m_attempt (m_surround mf_double_quote mf_string_surround mf_double_quote))
                    (m_attempt (m_surround mf_single_quote mf_string_surround mf_single_quote))) mf_string_surround)
    (@List.concat N).
(** hocon/src/parsers.rs 166-168 *)
Definition mf_string_cv : mparser cv := m_map mf_hstring CStr.
(** hocon/src/parsers.rs 187-189 *)
Definition mf_key_p : mparser key := mf_spaced (m_or (m_attempt mf_path_p) mf_hstring).
(** hocon/src/parsers.rs 183-185 *)
Definition mf_kv : mparser unit := m_discard (m_elm_ref_of (set_contains (bs "=:"))).
(** hocon/src/parsers.rs 207-209 *)
Definition mf_comma : mparser N := mf_spaced (m_elm_ref (chr ",")).

(** hocon/src/parsers.rs 241-257; [m_id]: map(String::from) *)
Definition mf_reference : mparser (bool * list N) :=
  m_surround (mf_spaced (m_seqN (bs "${")))
    (m_and (m_map (m_opt (m_elm_ref (chr "?"))) (fun v => match v with Some _ => true | None => false end))
           (m_id (m_map_res (m_collect (m_many1_sep mf_path_element (m_elm (chr ".")))) from_utf8)))
    (mf_spaced (m_seqN (bs "}"))).
(** hocon/src/parsers.rs 267-273 *)
Definition mf_reference_cv : mparser cv := m_map mf_reference (fun mn => CRef None (snd mn) (fst mn)).
(** hocon/src/parsers.rs 275-282 *)
Definition mf_enumeration_cv : mparser cv := m_map (m_many1 (m_or (m_attempt mf_string_cv) mf_reference_cv)) (fun vs => CEnum None vs).
(** hocon/src/parsers.rs 284-292 *)
Definition mf_simple_cv : mparser cv :=
  mf_spaced (m_or (m_or (m_or (m_or (m_or
    (m_attempt (m_map (m_seqN (bs "null")) (fun _ => CNull)))
    (m_attempt (m_map (m_seqN (bs "true")) (fun _ => CBool true))))
    (m_attempt (m_map (m_seqN (bs "false")) (fun _ => CBool false))))
    (m_attempt mf_duration_value))
    (m_attempt (m_map mf_number_value CNum)))
    mf_string_cv).

Section Recursion.
(** lazy(config_value) and lazy(property) *)
Variable value : mparser cv.
Variable prop : mparser (key * cv).
(** hocon/src/parsers.rs 170-181, 263-265 *)
Definition mf_array_cv : mparser cv :=
  m_map (m_surround (mf_spaced (m_elm_ref (chr "["))) (m_many0_sep (m_lazy value) mf_comma) (mf_spaced (m_elm_ref (chr "]")))) CArr.
(** hocon/src/parsers.rs 199-227, 259-261; [m_id]: the two maps of the source are one in the model *)
Definition mf_object_cv : mparser cv :=
  m_id (m_map (m_surround (mf_spaced (m_elm_ref (chr "{"))) (m_many0_sep (m_lazy prop) (m_opt mf_comma)) (mf_spaced (m_elm_ref (chr "}"))))
    (fun ps => CObj (obj_fold ps))).
(** hocon/src/parsers.rs 191-193 *)
Definition mf_property_step : mparser (key * cv) :=
  m_and mf_key_p (m_or (m_or (m_attempt (m_skip_left mf_kv (m_lazy value))) (m_attempt mf_object_cv)) mf_array_cv).
(** hocon/src/parsers.rs 294-301 *)
Definition mf_value_step : mparser cv :=
  mf_spaced (m_or (m_or (m_or (m_or (m_attempt mf_array_cv) (m_attempt mf_object_cv)) (m_attempt mf_reference_cv)) (m_attempt mf_simple_cv))
    mf_enumeration_cv).
(** hocon/src/parsers.rs 195-197 ([m_id]), 303-323 *)
Definition mf_config_step : mparser (list cv) :=
  m_or (m_or (m_attempt (m_map (m_many1 (m_id mf_property_step)) (fun ps => [CObj (top_fold ps)])))
             (m_attempt (m_many1 mf_include_cv)))
       (m_many0 (m_or (m_attempt mf_object_cv) mf_array_cv)).
End Recursion.

(** hocon/src/parsers.rs 179, 192 and 212: the recursion through lazy; [fuel] bounds its depth. *)
Fixpoint mf_value_fuel (fuel : nat) (inp : list N) (off : nat) {struct fuel} : outcome N cv * meas :=
  match fuel with 0 => (Diverge, Meas 0 0) | S n => mf_value_step (mf_value_fuel n) (mf_property_fuel n) inp off end
with mf_property_fuel (fuel : nat) (inp : list N) (off : nat) {struct fuel} : outcome N (key * cv) * meas :=
  match fuel with 0 => (Diverge, Meas 0 0) | S n => mf_property_step (mf_value_fuel n) (mf_property_fuel n) inp off end.
(** hocon/src/parsers.rs 325-327 *)
Definition mf_hocon_fuel (fuel : nat) : mparser (list cv) :=
  m_skip_right (m_skip_left mf_space_or_comment (mf_config_step (mf_value_fuel fuel) (mf_property_fuel fuel))) (m_leaf p_end).
Definition mf_hocon_p : mparser (list cv) := fun inp off => mf_hocon_fuel (S (length inp)) inp off.

(** ** The outcomes are those of Hocon.v *)
Lemma er_filter_digit : erases (m_filter_not m_elm_digit_ref is_ascii_digit_zero) p_elm_digit_1_9_ref.
Proof. apply er_filter_not, er_leaf. Qed.
Lemma er_alpha : erases (m_elm_pred is_ascii_alpha) p_elm_alpha.
Proof. apply er_elm_pred. Qed.
Ltac erf1 := first [apply er_filter_digit | apply er_alpha | er_step | apply er_lazy | apply er_many0_sep | apply er_leaf].
Ltac erf := repeat first [apply er_filter_digit | apply er_alpha | er_step | apply er_lazy | apply er_many0_sep | apply er_leaf].
Lemma ef_hspace : erases mf_hspace hspace.
Proof. unfold mf_hspace, hspace. repeat first [erf1]. Qed.
Lemma ef_comment_head : erases mf_comment_head comment_head.
Proof. unfold mf_comment_head, comment_head. repeat first [erf1]. Qed.
Lemma ef_comment_tail : erases mf_comment_tail comment_tail.
Proof. unfold mf_comment_tail, comment_tail. repeat first [erf1]. Qed.
Lemma ef_comment : erases mf_comment comment.
Proof. unfold mf_comment, comment. repeat first [apply ef_hspace | apply ef_comment_head | apply ef_comment_tail | erf1]. Qed.
Lemma ef_space_or_comment : erases mf_space_or_comment space_or_comment.
Proof. unfold mf_space_or_comment, space_or_comment. repeat first [apply ef_hspace | apply ef_comment | erf1]. Qed.
Lemma ef_spaced : forall A (g : mparser A) p, erases g p -> erases (mf_spaced g) (spaced p).
Proof. intros A g p H. apply er_surround; [apply ef_space_or_comment|exact H|apply ef_space_or_comment]. Qed.
Ltac erg := repeat first [apply ef_spaced | erf].
Lemma ef_path_element : erases mf_path_element path_element.
Proof. unfold mf_path_element, path_element. repeat first [apply ef_spaced | erf1]. Qed.
Lemma ef_path_p : erases mf_path_p path_p.
Proof. unfold mf_path_p, path_p. repeat first [apply ef_path_element | apply ef_spaced | erf1]. Qed.
Lemma ef_include_method : erases mf_include_method include_method.
Proof. unfold mf_include_method, include_method. repeat first [apply ef_spaced | erf1]. Qed.
Lemma ef_include_cv : erases mf_include_cv (include_cv D).
Proof. unfold mf_include_cv, include_cv. repeat first [apply ef_path_p | apply ef_include_method | apply ef_spaced | erf1]. Qed.
Lemma ef_hinteger : erases mf_hinteger hinteger.
Proof. unfold mf_hinteger, hinteger. repeat first [apply ef_spaced | erf1]. Qed.
Lemma ef_hfrac : erases mf_hfrac hfrac.
Proof. unfold mf_hfrac, hfrac. repeat first [apply ef_spaced | erf1]. Qed.
Lemma ef_hexp : erases mf_hexp hexp.
Proof. unfold mf_hexp, hexp. repeat first [apply ef_spaced | erf1]. Qed.
Lemma ef_hnumber : erases mf_hnumber hnumber.
Proof. unfold mf_hnumber, hnumber. repeat first [apply ef_hinteger | apply ef_hfrac | apply ef_hexp | apply ef_spaced | erf1]. Qed.
Lemma ef_number_value : erases mf_number_value (number_value dec).
Proof. unfold mf_number_value, number_value. repeat first [apply ef_hnumber | apply ef_spaced | erf1]. Qed.
Lemma ef_unit_of : forall u g p, erases g p -> erases (mf_unit_of u g) (unit_of u p).
Proof. intros u g p H. now apply er_map. Qed.
Lemma ef_seq_a : forall s, erases (mf_seq_a s) (seq_a s).
Proof. intros s. apply er_attempt, er_leaf. Qed.
Lemma ef_unit_ns : erases mf_unit_ns unit_ns.
Proof. unfold mf_unit_ns, unit_ns. repeat first [apply ef_unit_of | apply ef_seq_a | apply ef_spaced | erf1]. Qed.
Lemma ef_unit_us : erases mf_unit_us unit_us.
Proof. unfold mf_unit_us, unit_us. repeat first [apply ef_unit_of | apply ef_seq_a | apply ef_spaced | erf1]. Qed.
Lemma ef_unit_ms : erases mf_unit_ms unit_ms.
Proof. unfold mf_unit_ms, unit_ms. repeat first [apply ef_unit_of | apply ef_seq_a | apply ef_spaced | erf1]. Qed.
Lemma ef_unit_s : erases mf_unit_s unit_s.
Proof. unfold mf_unit_s, unit_s. repeat first [apply ef_unit_of | apply ef_seq_a | apply ef_spaced | erf1]. Qed.
Lemma ef_unit_m : erases mf_unit_m unit_m.
Proof. unfold mf_unit_m, unit_m. repeat first [apply ef_unit_of | apply ef_seq_a | apply ef_spaced | erf1]. Qed.
Lemma ef_unit_h : erases mf_unit_h unit_h.
Proof. unfold mf_unit_h, unit_h. repeat first [apply ef_unit_of | apply ef_seq_a | apply ef_spaced | erf1]. Qed.
Lemma ef_unit_d : erases mf_unit_d unit_d.
Proof. unfold mf_unit_d, unit_d. repeat first [apply ef_unit_of | apply ef_seq_a | apply ef_spaced | erf1]. Qed.
Lemma ef_time_unit_p : erases mf_time_unit_p time_unit_p.
Proof. unfold mf_time_unit_p, time_unit_p. repeat first [apply ef_unit_ns | apply ef_unit_us | apply ef_unit_ms | apply ef_unit_s | apply ef_unit_m | apply ef_unit_h | apply ef_unit_d | apply ef_spaced | erf1]. Qed.
Lemma ef_duration : erases mf_duration (duration dec).
Proof. unfold mf_duration, duration. repeat first [apply ef_number_value | apply ef_time_unit_p | apply ef_spaced | erf1]. Qed.
Lemma ef_duration_value : erases mf_duration_value (duration_value dec).
Proof. unfold mf_duration_value, duration_value. repeat first [apply ef_duration | apply ef_spaced | erf1]. Qed.
Lemma ef_double_quote : erases mf_double_quote double_quote.
Proof. unfold mf_double_quote, double_quote. repeat first [apply ef_spaced | erf1]. Qed.
Lemma ef_single_quote : erases mf_single_quote single_quote.
Proof. unfold mf_single_quote, single_quote. repeat first [apply ef_spaced | erf1]. Qed.
Lemma ef_special_char : erases mf_special_char special_char.
Proof. unfold mf_special_char, special_char. repeat first [apply ef_spaced | erf1]. Qed.
Lemma ef_escape_sequence : erases mf_escape_sequence escape_sequence.
Proof. unfold mf_escape_sequence, escape_sequence. repeat first [apply ef_special_char | apply ef_spaced | erf1]. Qed.
Lemma ef_utf16_char : erases mf_utf16_char (utf16_char true).
Proof. unfold mf_utf16_char, utf16_char. repeat first [apply ef_spaced | erf1]. Qed.
Lemma ef_utf16_string : erases mf_utf16_string (utf16_string true).
Proof. unfold mf_utf16_string, utf16_string. repeat first [apply ef_utf16_char | apply ef_spaced | erf1]. Qed.
Lemma ef_hchar_string : erases mf_hchar_string hchar_string.
Proof. unfold mf_hchar_string, hchar_string. repeat first [apply ef_escape_sequence | apply ef_spaced | erf1]. Qed.
Lemma ef_string_surround : erases mf_string_surround string_surround.
Proof. unfold mf_string_surround, string_surround. repeat first [apply ef_utf16_string | apply ef_hchar_string | apply ef_spaced | erf1]. Qed.
Lemma ef_hstring : erases mf_hstring hstring.
Proof. unfold mf_hstring, hstring. repeat first [apply ef_double_quote | apply ef_single_quote | apply ef_string_surround | apply ef_spaced | erf1]. Qed.
Lemma ef_string_cv : erases mf_string_cv (string_cv D).
Proof. unfold mf_string_cv, string_cv. repeat first [apply ef_hstring | apply ef_spaced | erf1]. Qed.
Lemma ef_key_p : erases mf_key_p key_p.
Proof. unfold mf_key_p, key_p. repeat first [apply ef_path_p | apply ef_hstring | apply ef_spaced | erf1]. Qed.
Lemma ef_kv : erases mf_kv kv.
Proof. unfold mf_kv, kv. repeat first [apply ef_spaced | erf1]. Qed.
Lemma ef_comma : erases mf_comma comma.
Proof. unfold mf_comma, comma. repeat first [apply ef_spaced | erf1]. Qed.
Lemma ef_reference : erases mf_reference reference.
Proof. unfold mf_reference, reference. repeat first [apply ef_path_element | apply ef_spaced | erf1]. Qed.
Lemma ef_reference_cv : erases mf_reference_cv (reference_cv D).
Proof. unfold mf_reference_cv, reference_cv. repeat first [apply ef_reference | apply ef_spaced | erf1]. Qed.
Lemma ef_enumeration_cv : erases mf_enumeration_cv (enumeration_cv D).
Proof. unfold mf_enumeration_cv, enumeration_cv. repeat first [apply ef_string_cv | apply ef_reference_cv | apply ef_spaced | erf1]. Qed.
Lemma ef_simple_cv : erases mf_simple_cv (simple_cv dec).
Proof. unfold mf_simple_cv, simple_cv. repeat first [apply ef_number_value | apply ef_duration_value | apply ef_string_cv | apply ef_spaced | erf1]. Qed.
Section Er.
Variables (gv : mparser cv) (v : parser N cv) (gp : mparser (key * cv)) (p : parser N (key * cv)).
Hypothesis Ev : erases gv v.
Hypothesis Ep : erases gp p.
Lemma ef_array : erases (mf_array_cv gv) (array_cv v).
Proof. unfold mf_array_cv, array_cv. repeat first [apply ef_spaced | apply ef_comma | erf1]. Qed.
Lemma ef_object : erases (mf_object_cv gp) (object_cv p).
Proof. unfold mf_object_cv, object_cv. repeat first [apply ef_spaced | apply ef_comma | erf1]. Qed.
Lemma ef_property : erases (mf_property_step gv gp) (property_step v p).
Proof. unfold mf_property_step, property_step. repeat first [apply ef_key_p | apply ef_kv | apply ef_array | apply ef_object | erf1]. Qed.
Lemma ef_value : erases (mf_value_step gv gp) (value_step dec v p).
Proof. unfold mf_value_step, value_step. repeat first [apply ef_simple_cv | apply ef_enumeration_cv | apply ef_reference_cv | apply ef_array | apply ef_object | apply ef_spaced | erf1]. Qed.
Lemma ef_config : erases (mf_config_step gv gp) (config_step v p).
Proof. unfold mf_config_step, config_step. repeat first [apply ef_property | apply ef_include_cv | apply ef_array | apply ef_object | erf1]. Qed.
End Er.
Lemma ef_fuel : forall n, erases (mf_value_fuel n) (value_fuel dec n) /\ erases (mf_property_fuel n) (property_fuel dec n).
Proof.
  induction n as [|n [IH1 IH2]]; [split; intros inp off; reflexivity|]. split; intros inp off.
  - exact (ef_value IH1 IH2 inp off).
  - exact (ef_property IH1 IH2 inp off).
Qed.
Lemma ef_hocon : erases mf_hocon_p (hocon_p dec).
Proof.
  intros inp off. unfold mf_hocon_p, hocon_p, mf_hocon_fuel, hocon_fuel. destruct (ef_fuel (S (length inp))) as [E1 E2].
  apply er_skip_right; [apply er_skip_left; [apply ef_space_or_comment|now apply ef_config]|apply er_leaf].
Qed.

(** ** Heights in proportion to the opening brackets ahead *)
Definition is_open (x : N) : bool := (x =? chr "{")%N || (x =? chr "[")%N.
Definition opening (s : list N) : nat := length (filter is_open s).
Lemma opening_tail : forall s k, opening (skipn k s) <= opening s.
Proof.
  intros s k. revert s. induction k as [|k IH]; intros [|x s]; try apply le_n. cbn [skipn]. etransitivity; [apply IH|]. unfold opening. cbn [filter]. destruct (is_open x); cbn; lia.
Qed.
Lemma opening_skip : forall s i k, opening (skipn (i + k) s) <= opening (skipn i s).
Proof.
  induction s as [|x s IH]; intros [|i] k; try (cbn; rewrite ?skipn_nil; apply le_n); [apply (opening_tail (x :: s) k)|]. cbn [skipn plus]. apply IH.
Qed.
Lemma opening_next : forall s i x t, skipn i s = x :: t -> is_open x = true -> S (opening (skipn (i + 1) s)) = opening (skipn i s).
Proof.
  induction s as [|y s IH]; intros [|i] x t H O; try discriminate.
  - cbn in H. inv H. unfold opening. cbn [skipn plus filter]. now rewrite O.
  - cbn [skipn plus] in *. now apply (IH i x t).
Qed.
Definition tall {A} (a b : nat) (g : mparser A) : Prop := forall inp off, hgt (snd (g inp off)) <= a * opening (skipn off inp) + b.
Lemma t_le : forall A a b c (g : mparser A), tall a b g -> b <= c -> tall a c g.
Proof. intros A a b c g H L inp off. specialize (H inp off). lia. Qed.
Lemma t_flat : forall A a b (g : mparser A), flat b g -> tall a b g.
Proof. intros A a b g H inp off. specialize (H inp off). lia. Qed.
Lemma t_one : forall A B (k : parser N A -> parser N B) a b g, tall a b g -> tall a (S b) (m_one k g).
Proof. intros A B k a b g H inp off. specialize (H inp off). unfold m_one. destruct (g inp off) as [o m]. cbn [snd up hgt] in *. lia. Qed.
Lemma t_two : forall A B C (k : parser N A -> parser N B -> parser N C) a i j g h, tall a i g -> tall a j h -> tall a (S (Nat.max i j)) (m_two k g h).
Proof.
  intros A B C k a i j g h H1 H2 inp off. specialize (H1 inp off). unfold m_two. destruct (g inp off) as [o m]. cbn [snd] in H1.
  destruct o as [x n|e c| |]; cbn [snd up hgt]; try lia. specialize (H2 inp (off + n)). pose proof (opening_skip inp off n) as M.
  destruct (h inp (off + n)) as [o2 m2]. cbn [snd up both hgt] in *. nia.
Qed.
(** A parser behind an opening bracket has one bracket less ahead. *)
Definition eats {A} (g : mparser A) : Prop := forall inp off v n, fst (g inp off) = Success v n -> S (opening (skipn (off + n) inp)) <= opening (skipn off inp).
Lemma t_open : forall A B C (k : parser N A -> parser N B -> parser N C) a i j g h, eats g -> tall a i g -> tall a (a + j) h -> tall a (S (Nat.max i j)) (m_two k g h).
Proof.
  intros A B C k a i j g h E H1 H2 inp off. specialize (H1 inp off). specialize (E inp off). unfold m_two. destruct (g inp off) as [o m]. cbn [fst snd] in H1, E.
  destruct o as [x n|e c| |]; cbn [snd up hgt]; try lia. specialize (H2 inp (off + n)). specialize (E x n eq_refl).
  destruct (h inp (off + n)) as [o2 m2]. cbn [snd up both hgt] in *. nia.
Qed.
Lemma t_or : forall A a i j (g h : mparser A), tall a i g -> tall a j h -> tall a (S (Nat.max i j)) (m_or g h).
Proof.
  intros A a i j g h H1 H2 inp off. specialize (H1 inp off). specialize (H2 inp off). unfold m_or. destruct (g inp off) as [o m]. cbn [snd] in H1.
  destruct o as [x n|e [|]| |]; cbn [snd up hgt]; try lia. destruct (h inp off) as [o2 m2]. cbn [snd up both hgt] in *. lia.
Qed.
Definition tall_opt {B} (a b : nat) (s : option (mparser B)) : Prop := match s with Some h => tall a b h | None => True end.
Lemma t_loop : forall A B a b (g : mparser A) (s : option (mparser B)), tall a b g -> tall_opt a b s ->
  forall fuel rend inp cur items all m, hgt (snd (m_loop fuel g s rend inp cur items all m)) <= Nat.max (hgt m) (a * opening (skipn cur inp) + b).
Proof.
  intros A B a b g s H1 H2. induction fuel as [|fuel IH]; intros rend inp cur items all m; cbn [m_loop]; [cbn; lia|].
  destruct (rep_stop rend (length items)); [cbn; lia|].
  assert (E : forall cur all m, hgt (snd (let '(o, m1) := g inp cur in
      match o with
      | Success v n => m_loop fuel g s rend inp (cur + n) (v :: items) (all + n) (both m m1)
      | Failure _ _ => (RDone (rev items) all, both m m1)
      | Panic => (Comb.RPanic, both m m1)
      | Diverge => (Comb.RDiverge, both m m1)
      end)) <= Nat.max (hgt m) (a * opening (skipn cur inp) + b)).
  { intros c a0 m0. specialize (H1 inp c). destruct (g inp c) as [[v n|e d| |] m1]; cbn [fst snd] in *; [|cbn [snd both hgt]; lia..].
    specialize (IH rend inp (c + n) (v :: items) (a0 + n) (both m0 m1)). pose proof (opening_skip inp c n) as M. cbn [both hgt] in IH. nia. }
  destruct s as [h|]; [|apply E]. specialize (H2 inp cur). destruct (h inp cur) as [[v n|e d| |] m1]; cbn [snd] in H2; [|cbn [snd both hgt]; lia..].
  specialize (E (cur + n) (all + n) (both m m1)). pose proof (opening_skip inp cur n) as M. cbn [both hgt] in E. nia.
Qed.
Lemma t_rep : forall A B a i j (g : mparser A) r (s : option (mparser B)), tall a i g -> tall_opt a j s -> tall a (S (Nat.max i j)) (m_rep g r s).
Proof.
  intros A B a i j g r s H1 H2 inp off. unfold m_rep.
  assert (K1 : tall a (Nat.max i j) g) by (eapply t_le; [exact H1|lia]).
  assert (K2 : tall_opt a (Nat.max i j) s) by (destruct s; [eapply t_le; [exact H2|lia]|exact I]).
  pose proof (K1 inp off) as E. destruct (g inp off) as [[x n|e c| |] m]; cbn [snd] in E; [|cbn [snd up hgt]; lia..].
  pose proof (@t_loop A B a _ g s K1 K2 (rep_fuel (rg_end r) inp off) (rg_end r) inp (off + n) [x] n m) as L. pose proof (opening_skip inp off n) as M.
  destruct (m_loop _ g s _ inp (off + n) [x] n m) as [d m']. cbn [snd up hgt] in *. nia.
Qed.
Lemma t_rep0 : forall A a i (g : mparser A) r, tall a i g -> tall a (S i) (m_rep g r (None : option (mparser unit))).
Proof. intros A a i g r H. eapply t_le; [apply (@t_rep A unit a i 0 g r None H I)|]. lia. Qed.

(** An opening bracket between white space and comments. *)
Lemma eats_spaced : forall c, is_open c = true -> eats (mf_spaced (m_elm_ref c)).
Proof.
  intros c O inp off v n E. rewrite (ef_spaced (er_elm_ref c) inp off) in E. unfold spaced, p_surround, p_skip_left, p_skip_right in E.
  destruct (space_or_comment inp off) as [u n1|e d| |]; try discriminate. destruct (p_elm_ref c inp (off + n1)) as [w n2|e d| |] eqn:F; cbn in E; try discriminate.
  destruct (space_or_comment inp (off + n1 + n2)) as [u3 n3|e d| |]; cbn in E; try discriminate. inv E.
  unfold p_elm_ref, p_elm_ref_eq, p_elm_pred_ref, ps_input, slice_from in F. destruct (off + n1 <=? length inp); [|discriminate]. destruct (skipn (off + n1) inp) as [|x t] eqn:G; [discriminate|].
  destruct (x =? c)%N eqn:Q; [|discriminate]. inv F. apply N.eqb_eq in Q. subst v.
  pose proof (opening_next _ _ G O) as H. pose proof (opening_skip inp off n1) as M1. pose proof (opening_skip inp (off + n1 + 1) n3) as M2.
  replace (off + (n1 + (1 + n3))) with (off + n1 + 1 + n3) by lia. lia.
Qed.

(** ** The grammar *)
Ltac flh := repeat first [eassumption | apply fl_leaf | apply fl_or | apply fl_opt | apply fl_two | apply fl_one | apply fl_rep0 | apply fl_rep].
Ltac flat_by := eapply fl_le; [flh|apply Nat.leb_le; reflexivity].
Lemma fl_soc : flat 11 mf_space_or_comment.
Proof. flat_by. Qed.
Lemma fl_spaced : forall A i (g : mparser A), flat i g -> flat (S (Nat.max 11 (S (Nat.max i 11)))) (mf_spaced g).
Proof. intros A i g H. pose proof fl_soc. unfold mf_spaced, m_surround. apply fl_two; [assumption|]. now apply fl_two. Qed.
Lemma fl_key : flat 25 mf_key_p.
Proof. pose proof fl_soc. flat_by. Qed.
Lemma fl_include : flat 13 mf_include_cv.
Proof. pose proof fl_soc. flat_by. Qed.
Lemma fl_reference : flat 16 mf_reference_cv.
Proof. pose proof fl_soc. flat_by. Qed.
Lemma fl_simple : flat 26 mf_simple_cv.
Proof. pose proof fl_soc. flat_by. Qed.
Lemma fl_enumeration : flat 28 mf_enumeration_cv.
Proof. pose proof fl_soc. pose proof fl_reference. flat_by. Qed.
Lemma fl_comma : flat 13 mf_comma.
Proof. pose proof fl_soc. flat_by. Qed.
Ltac tl := repeat first [eassumption | apply t_or | apply t_two | apply t_one | apply t_rep0 | apply t_flat, fl_leaf].
Ltac small := apply Nat.leb_le; reflexivity.
Lemma t_spaced : forall A a i (g : mparser A), tall a i g -> tall a (S (Nat.max 11 (S (Nat.max i 11)))) (mf_spaced g).
Proof. intros A a i g H. pose proof (@t_flat _ a _ _ fl_soc). unfold mf_spaced, m_surround. tl. Qed.
Lemma fl_bracket : forall c, flat 13 (mf_spaced (m_elm_ref c)).
Proof. intros c. pose proof fl_soc. flat_by. Qed.
(** What an item may nest besides the brackets ahead of it. *)
Definition per_open := 19.
Definition per_value := 31.
Definition per_property := 37.
Section Rec.
Variable value : mparser cv.
Variable prop : mparser (key * cv).
Hypothesis Tv : tall per_open per_value value.
Hypothesis Tp : tall per_open per_property prop.
Lemma t_array : tall per_open 22 (mf_array_cv value).
Proof.
  unfold mf_array_cv, m_surround. apply t_one. eapply t_le; [apply t_open with (i := 13) (j := 20); [now apply eats_spaced|apply t_flat, fl_bracket|]|small].
  eapply t_le; [apply t_two; [apply t_rep with (j := 13); [apply t_one, Tv|apply t_flat, fl_comma]|apply t_flat, fl_bracket]|small].
Qed.
Lemma t_object : tall per_open 24 (mf_object_cv prop).
Proof.
  unfold mf_object_cv, m_surround. apply t_one, t_one. eapply t_le; [apply t_open with (i := 13) (j := 21); [now apply eats_spaced|apply t_flat, fl_bracket|]|small].
  eapply t_le; [apply t_two; [apply t_rep with (j := 16); [apply t_one, Tp|apply t_flat; exact (fl_opt fl_comma)]|apply t_flat, fl_bracket]|small].
Qed.
Lemma t_property : tall per_open per_property (mf_property_step value prop).
Proof.
  pose proof t_array as HA. pose proof t_object as HO. unfold mf_property_step.
  eapply t_le; [apply t_two; [apply t_flat, fl_key|apply t_or; [apply t_or; [apply t_one; apply t_two with (i := 2); [apply t_flat; flat_by|apply t_one, Tv]|apply t_one, HO]|exact HA]]|small].
Qed.
Lemma t_value : tall per_open per_value (mf_value_step value prop).
Proof.
  pose proof t_array as HA. pose proof t_object as HO. unfold mf_value_step.
  eapply t_le; [apply t_spaced; repeat apply t_or; [apply t_one, HA|apply t_one, HO|apply t_one, t_flat, fl_reference|apply t_one, t_flat, fl_simple|apply t_flat, fl_enumeration]|small].
Qed.
Lemma t_config : tall per_open 43 (mf_config_step value prop).
Proof.
  pose proof t_array as HA. pose proof t_object as HO. pose proof t_property as HP. unfold mf_config_step.
  eapply t_le; [repeat apply t_or; [apply t_one, t_one, t_rep0, t_one, HP|apply t_one, t_rep0, t_flat, fl_include|apply t_rep0, t_or; [apply t_one, HO|exact HA]]|small].
Qed.
End Rec.
Lemma t_fuel : forall n, tall per_open per_value (mf_value_fuel n) /\ tall per_open per_property (mf_property_fuel n).
Proof.
  induction n as [|n [IH1 IH2]]; [split; intros inp off; cbn; lia|]. split; intros inp off; cbn [mf_value_fuel mf_property_fuel]; [now apply t_value|now apply t_property].
Qed.
Theorem hocon_height : forall text, hgt (snd (mf_hocon_p text 0)) <= 19 * opening text + 45.
Proof.
  intros text. unfold mf_hocon_p, mf_hocon_fuel. destruct (t_fuel (S (length text))) as [T1 T2]. pose proof (t_config T1 T2) as HC.
  assert (H : tall per_open 45 (m_skip_right (m_skip_left mf_space_or_comment (mf_config_step (mf_value_fuel (S (length text))) (mf_property_fuel (S (length text))))) (m_leaf p_end))).
  { eapply t_le; [apply t_two; [apply t_two; [apply t_flat, fl_soc|exact HC]|apply t_flat, fl_leaf]|small]. }
  exact (H text 0).
Qed.
End Measured.
