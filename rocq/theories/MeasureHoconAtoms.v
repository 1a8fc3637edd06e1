(** How many closures the parsers of hocon/src/parsers.rs without recursion call: so many for every element of the text, plus a constant; a text joined
    from strings and references, so many for every two. *)
From Verif Require Import Base Core Comb Closure RepFacts LitFacts Hoare Runs Weak Agree Text Json JsonSpec JsonFacts Hocon HoconFacts HoconParse HoconSpec HoconComplete HoconConf HoconLookup
  Measure MeasureCount MeasureUri MeasureUriCount MeasureHocon.
Set Implicit Arguments.
Local Open Scope string_scope.
Local Open Scope nat_scope.
Local Open Scope list_scope.

(** ** The parsers without recursion *)
Lemma wi_tail : within 0 mf_comment_tail.
Proof. eapply wi_hoare; [apply ef_comment_tail|apply h_take_till0|]. intros. lia. Qed.
Lemma wi_hspace : within 0 mf_hspace.
Proof. unfold mf_hspace, m_many0. within_by. Qed.
Lemma wi_head : within 1 mf_comment_head.
Proof. unfold mf_comment_head. within_by. Qed.
Lemma re_hspace : rest 1 3 mf_hspace.
Proof. unfold mf_hspace, m_many0. rest_by. Qed.
Lemma sm_head : small 6 mf_comment_head.
Proof. unfold mf_comment_head. small_by. Qed.
Lemma wi_line : within 1 (m_and mf_comment_head mf_comment_tail).
Proof. eapply wi_le; [apply wi_and; [apply wi_head|apply wi_tail]|lia]. Qed.
Lemma re_soc : rest 10 20 mf_space_or_comment.
Proof. unfold mf_space_or_comment, mf_comment, m_many1. pose proof re_hspace. pose proof wi_hspace. pose proof wi_head. pose proof wi_line. pose proof sm_head. rest_by. Qed.
Lemma wi_soc : within 0 mf_space_or_comment.
Proof. eapply wi_hoare; [apply ef_space_or_comment|apply h_soc|]. intros. lia. Qed.
Lemma wi_spaced : forall A j (g : mparser A), within j g -> within j (mf_spaced g).
Proof. intros A j g H. unfold mf_spaced, m_surround. eapply wi_le; [apply wi_skip_left; [apply wi_soc|apply wi_skip_right; [exact H|apply wi_soc]]|lia]. Qed.
Lemma re_spaced : forall A a b j (g : mparser A), within j g -> rest a b g -> rest (10 + (a + 10)) (S (20 + S (b + 20))) (mf_spaced g).
Proof. intros A a b j g W H. unfold mf_spaced, m_surround. eapply re_two; [apply wi_soc|apply re_soc|eapply re_two; [exact W|exact H|apply re_soc]]. Qed.
Lemma re_char : forall c, rest 20 43 (mf_spaced (m_elm_ref c)).
Proof. intros c. pose proof (@re_spaced _ 0 1 1 (m_elm_ref c) (wi_elm_pred_ref _) (re_small (@sm_leaf _ _))) as H. rest_by. Qed.
Lemma re_kv : rest 0 2 mf_kv.
Proof. unfold mf_kv. rest_by. Qed.
Lemma re_opt_comma : rest 20 47 (m_opt mf_comma).
Proof. pose proof (@re_char (chr ",")) as H. unfold mf_comma. rest_by. Qed.

(** Paths *)
Definition path_elm : mparser N := m_or (m_elm_pred is_ascii_alpha) (m_elm_of (bs "-_")).
Lemma sm_path_elm : small 5 path_elm.
Proof. unfold path_elm. small_by. Qed.
Lemma wi_path_elm : within 1 path_elm.
Proof. unfold path_elm, m_elm_pred, m_elm_of. within_by. Qed.
Lemma ln_path_element : linear 5 7 mf_path_element.
Proof. unfold mf_path_element, m_many1. eapply ln_collect; [eapply wi_rep0, wi_path_elm|apply ln_many; [apply sm_path_elm|apply wi_path_elm]]. Qed.
Lemma wi_path_element : within 1 mf_path_element.
Proof. unfold mf_path_element. apply wi_collect, wi_many1, wi_path_elm. Qed.
Lemma wi_dot : within 1 (m_elm (chr ".")).
Proof. unfold m_elm. within_by. Qed.
Lemma re_paths : rest 14 10 (m_many1_sep mf_path_element (m_elm (chr "."))).
Proof.
  unfold m_many1_sep. eapply re_le; [apply re_rep with (c := 2); [apply wi_path_element|apply ln_path_element|split; [unfold m_elm; small_by|eapply wi_le; [apply wi_dot|lia]]]|cbn; lia|cbn; lia].
Qed.
Lemma wi_paths : within 1 (m_many1_sep mf_path_element (m_elm (chr "."))).
Proof.
  eapply wi_hoare; [apply er_many1_sep; [apply ef_path_element|apply er_elm]| |].
  - eapply h_many1_sep with (S := any) (R := some); [apply h_path_element|apply h_elm with (R := any); intros; exact Logic.I| |].
    + intros v s w t (_ & H & _) _ E. apply app_eq_nil in E. tauto.
    + intros v s vs t (_ & Hn & _) _ E. apply app_eq_nil in E. tauto.
  - intros v [|x s] H; [contradiction H; reflexivity|cbn; lia].
Qed.
Lemma re_path : rest 14 13 mf_path_p.
Proof. pose proof re_paths. unfold mf_path_p, m_id. rest_by. Qed.
Lemma wi_path : within 1 mf_path_p.
Proof. unfold mf_path_p, m_id. apply wi_map, wi_map_res, wi_collect, wi_paths. Qed.

(** Includes *)
Section Atoms.
Variable D : Type.
Variable dec : list N -> option D.
Lemma wi_quoted_path : within 1 (m_surround (m_seqN (bs "(" ++ [34]%N)) mf_path_p (m_seqN ([34]%N ++ bs ")"))).
Proof. unfold m_surround. eapply wi_le; [apply wi_skip_left; [apply wi_seqN|apply wi_skip_right; [apply wi_path|apply wi_seqN]]|cbn; lia]. Qed.
Lemma sm_method : small 8 mf_include_method.
Proof. unfold mf_include_method, m_id. small_by. Qed.
Lemma wi_method : within 1 mf_include_method.
Proof. unfold mf_include_method, m_id. within_by. Qed.
Lemma wi_include : within 1 (mf_include_cv D).
Proof. pose proof wi_method. pose proof wi_quoted_path. unfold mf_include_cv, m_elm. within_by. Qed.
Lemma re_include : rest 14 32 (mf_include_cv D).
Proof. pose proof wi_method. pose proof sm_method. pose proof wi_path. pose proof re_path. unfold mf_include_cv, m_surround, m_elm. rest_by. Qed.

(** Numbers *)
Lemma wi_digit : within 1 m_elm_digit_ref.
Proof. apply wi_elm_pred_ref. Qed.
Lemma re_integer : rest 1 11 mf_hinteger.
Proof. pose proof wi_digit. unfold mf_hinteger, m_id, m_many0. rest_by. Qed.
Lemma wi_integer : within 1 mf_hinteger.
Proof. pose proof wi_digit. unfold mf_hinteger, m_id, m_many0. within_by. Qed.
Lemma re_frac : rest 1 7 mf_hfrac.
Proof. pose proof wi_digit. unfold mf_hfrac, m_id, m_many1. rest_by. Qed.
Lemma wi_frac : within 0 mf_hfrac.
Proof. pose proof wi_digit. unfold mf_hfrac, m_id. within_by. Qed.
Lemma re_exp : rest 1 15 mf_hexp.
Proof. pose proof wi_digit. unfold mf_hexp, m_id, m_many1, m_elm_of. rest_by. Qed.
Lemma wi_exp : within 0 mf_hexp.
Proof. pose proof wi_digit. unfold mf_hexp, m_id, m_elm_of. within_by. Qed.
Definition digits_p := m_and (m_and (m_and (m_opt (m_elm_ref (chr "-"))) mf_hinteger) (m_opt mf_hfrac)) (m_opt mf_hexp).
Lemma wi_digits : within 1 digits_p.
Proof. pose proof wi_integer. pose proof wi_frac. pose proof wi_exp. unfold digits_p. within_by. Qed.
Lemma re_digits : rest 3 49 digits_p.
Proof. pose proof wi_integer. pose proof wi_frac. pose proof wi_exp. pose proof re_integer. pose proof re_frac. pose proof re_exp. unfold digits_p. rest_by. Qed.
Lemma re_number : rest 23 93 (mf_number_value dec).
Proof. pose proof (re_spaced wi_digits re_digits) as H. unfold mf_number_value, mf_hnumber, m_id. fold digits_p. rest_by. Qed.
Lemma wi_number : within 1 (mf_number_value dec).
Proof. pose proof (wi_spaced wi_digits) as H. unfold mf_number_value, mf_hnumber, m_id. fold digits_p. within_by. Qed.
Lemma sm_unit : small 94 mf_time_unit_p.
Proof. unfold mf_time_unit_p, mf_unit_ns, mf_unit_us, mf_unit_ms, mf_unit_s, mf_unit_m, mf_unit_h, mf_unit_d, mf_unit_of, mf_seq_a. small_by. Qed.
Lemma wi_unit : within 0 mf_time_unit_p.
Proof. unfold mf_time_unit_p, mf_unit_ns, mf_unit_us, mf_unit_ms, mf_unit_s, mf_unit_m, mf_unit_h, mf_unit_d, mf_unit_of, mf_seq_a. eapply wi_le; [wi|apply Nat.le_0_l]. Qed.
Lemma re_duration : rest 23 189 (mf_duration_value dec).
Proof. pose proof re_number. pose proof wi_number. pose proof sm_unit. unfold mf_duration_value, mf_duration. rest_by. Qed.
Lemma wi_duration : within 1 (mf_duration_value dec).
Proof. pose proof wi_number. pose proof wi_unit. unfold mf_duration_value, mf_duration. within_by. Qed.

(** Strings *)
Definition m_hchar : mparser N := m_map (m_or (m_leaf (p_none_ref_of (set_contains (bs "[]" ++ [13; 10; 92; 34; 39]%N)))) mf_escape_sequence) (fun x => x).
Lemma ef_hchar : erases m_hchar hchar_elm.
Proof. unfold m_hchar, hchar_elm. apply er_map, er_or; [apply er_leaf|apply ef_escape_sequence]. Qed.
Lemma sm_hchar : small 26 m_hchar.
Proof. unfold m_hchar, mf_escape_sequence, mf_special_char. small_by. Qed.
Lemma wi_special : within 1 mf_special_char.
Proof. unfold mf_special_char. within_by. Qed.
Lemma wi_hchar : within 1 m_hchar.
Proof.
  unfold m_hchar. apply wi_map. eapply wi_le; [apply wi_or with (j := 1) (i := 2)|cbn; lia].
  - eapply wi_hoare; [apply er_leaf|apply h_none_ref with (R := some); intros; discriminate|]. intros v [|x s] H; [contradiction H; reflexivity|cbn; lia].
  - unfold mf_escape_sequence. exact (wi_skip_left (wi_elm_pred_ref _) wi_special).
Qed.
Lemma ln_hchars : linear 26 28 mf_hchar_string.
Proof. unfold mf_hchar_string. fold m_hchar. eapply ln_map_res; [eapply wi_rep0, wi_hchar|apply ln_many; [apply sm_hchar|apply wi_hchar]]. Qed.
Lemma wi_hchars : within 1 mf_hchar_string.
Proof. unfold mf_hchar_string. fold m_hchar. apply wi_map_res, wi_many1, wi_hchar. Qed.
Lemma sm_utf16_char : small 16 mf_utf16_char.
Proof. unfold mf_utf16_char, m_count, m_elm_hex_digit, m_elm_pred. small_by. Qed.
Lemma wi_utf16_char : within 1 mf_utf16_char.
Proof. eapply wi_hoare; [apply ef_utf16_char|apply h_utf16_char|]. intros v s (h & -> & _). cbn. lia. Qed.
Lemma ln_utf16 : linear 26 28 mf_utf16_string.
Proof. eapply ln_le; [unfold mf_utf16_string; eapply ln_map; [eapply wi_rep0, wi_utf16_char|apply ln_many; [apply sm_utf16_char|apply wi_utf16_char]]|lia|lia]. Qed.
Lemma wi_utf16 : within 1 mf_utf16_string.
Proof. unfold mf_utf16_string. apply wi_map, wi_many1, wi_utf16_char. Qed.
(** Where an escape of utf16_string stands, hchar_string fails at its first element. *)
Definition m_piece : mparser (list N) := m_or (m_attempt mf_hchar_string) mf_utf16_string.
Lemma wi_piece : within 1 m_piece.
Proof. unfold m_piece. eapply wi_le; [apply wi_or; [apply wi_attempt, wi_hchars|apply wi_utf16]|cbn; lia]. Qed.
Lemma hchars_at_u : forall inp off v k, off <= length inp -> fst (mf_utf16_string inp off) = Success v k -> cnt (snd (mf_hchar_string inp off)) <= 28.
Proof.
  intros inp off v k L E. rewrite (ef_utf16_string inp off) in E. destruct (h_success (h_utf16_string true) L E) as [_ (hs & H1 & _ & H2 & _)]. destruct hs as [|h hs]; [contradiction H1; reflexivity|].
  assert (X : exists t, skipn off inp = 92%N :: 117%N :: t).
  { cbn [map flat_map item_text] in H2. rewrite <- (firstn_skipn k (skipn off inp)), H2. cbn. now eexists. }
  destruct X as [t X]. unfold mf_hchar_string, m_map_res, m_one, m_many1, m_rep. fold m_hchar. pose proof (@sm_hchar inp off) as S0.
  assert (F : exists e, fst (m_hchar inp off) = Failure e false).
  { rewrite (ef_hchar inp off). destruct (@r_hchar_u t (firstn off inp)) as [e R]. rewrite <- X, firstn_skipn, firstn_length, Nat.min_l in R by exact L. now exists e. }
  destruct F as [e F]. destruct (m_hchar inp off) as [o m]. cbn [fst snd] in F, S0. rewrite F. cbn [fst snd up cnt]. lia.
Qed.
Lemma ln_piece : linear 52 58 m_piece.
Proof.
  intros n inp off L1 L2. pose proof (ln_hchars (n := n) inp L1 L2) as H1. pose proof (ln_utf16 (n := n) inp L1 L2) as H2. pose proof (@hchars_at_u inp off) as H3.
  unfold m_piece, m_or, m_attempt, m_one. destruct (mf_hchar_string inp off) as [[v k|e [|]| |] m]; cbn [fst snd cnt up both used] in *; unfold p_attempt, with_uncommitted; cbn [fst snd cnt up both used]; [lia| | |lia|lia];
    destruct (mf_utf16_string inp off) as [[v2 k2|e2 b2| |] m2]; cbn [fst snd cnt up both used] in *; try lia; specialize (H3 v2 k2 L1 eq_refl); lia.
Qed.
Lemma re_surround : rest 110 59 mf_string_surround.
Proof. unfold mf_string_surround, m_many1. fold m_piece. eapply re_le; [apply re_rep0; [apply wi_piece|apply ln_piece]|cbn; lia|cbn; lia]. Qed.
Lemma wi_surround : within 1 mf_string_surround.
Proof. unfold mf_string_surround. fold m_piece. apply wi_many1, wi_piece. Qed.
Lemma wi_char : forall c, within 1 (mf_spaced (m_elm_ref c)).
Proof. intros c. apply wi_spaced, wi_elm_pred_ref. Qed.
Lemma re_hstring : rest 410 358 mf_hstring.
Proof.
  pose proof wi_surround. pose proof re_surround. pose proof (@wi_char 34). pose proof (@re_char 34). pose proof (@wi_char 39). pose proof (@re_char 39).
  unfold mf_hstring, m_surround, mf_double_quote, mf_single_quote. rest_by.
Qed.
Lemma wi_hstring : within 1 mf_hstring.
Proof. pose proof wi_surround. pose proof (@wi_char 34). pose proof (@wi_char 39). unfold mf_hstring, m_surround, mf_double_quote, mf_single_quote. within_by. Qed.
Lemma re_key : rest 444 415 mf_key_p.
Proof.
  pose proof re_path. pose proof re_hstring. assert (W : within 1 (m_or (m_attempt mf_path_p) mf_hstring)) by (pose proof wi_path; pose proof wi_hstring; within_by).
  unfold mf_key_p. eapply re_le; [eapply re_spaced; [exact W|re]|apply Nat.leb_le; reflexivity..].
Qed.
Lemma wi_key : within 1 mf_key_p.
Proof. unfold mf_key_p. apply wi_spaced. pose proof wi_path. pose proof wi_hstring. within_by. Qed.

(** References and the texts joined from them *)
Lemma re_string : rest 410 359 (mf_string_cv D).
Proof. pose proof re_hstring. unfold mf_string_cv. rest_by. Qed.
Lemma wi_string : within 1 (mf_string_cv D).
Proof. pose proof wi_hstring. unfold mf_string_cv. within_by. Qed.
Lemma re_open_ref : forall s, rest 20 43 (mf_spaced (m_seqN s)).
Proof. intros s. pose proof (@re_spaced _ 0 1 _ (m_seqN s) (@wi_seqN s) (re_small (@sm_leaf _ _))) as H. rest_by. Qed.
Lemma re_reference : rest 54 109 (mf_reference_cv D).
Proof.
  pose proof (@re_open_ref (bs "${")). pose proof (@re_open_ref (bs "}")). pose proof (wi_spaced (@wi_seqN (bs "${"))). pose proof (wi_spaced (@wi_seqN (bs "}"))).
  pose proof re_paths. pose proof wi_paths. unfold mf_reference_cv, mf_reference, m_surround, m_id. rest_by.
Qed.
Lemma wi_reference : within 1 (mf_reference_cv D).
Proof.
  pose proof (wi_spaced (@wi_seqN (bs "${"))). pose proof (wi_spaced (@wi_seqN (bs "}"))). pose proof wi_paths. unfold mf_reference_cv, mf_reference, m_surround, m_id. within_by.
Qed.
Definition m_joined : mparser (cv D) := m_or (m_attempt (mf_string_cv D)) (mf_reference_cv D).
Lemma re_joined : rest 464 470 m_joined.
Proof. pose proof re_string. pose proof re_reference. unfold m_joined. rest_by. Qed.
Lemma wi_joined : within 1 m_joined.
Proof. pose proof wi_string. pose proof wi_reference. unfold m_joined. within_by. Qed.
Lemma re_simple : rest 476 700 (mf_simple_cv dec).
Proof.
  pose proof re_string. pose proof re_number. pose proof re_duration. unfold mf_simple_cv.
  match goal with |- rest _ _ (mf_spaced ?g) => assert (W : within 1 g) by (pose proof wi_string; pose proof wi_number; pose proof wi_duration; within_by) end.
  eapply re_le; [eapply re_spaced; [exact W|re]|apply Nat.leb_le; reflexivity..].
Qed.
Lemma wi_simple : within 1 (mf_simple_cv dec).
Proof. unfold mf_simple_cv. apply wi_spaced. pose proof wi_string. pose proof wi_number. pose proof wi_duration. within_by. Qed.
Lemma wi_enumeration : within 1 (mf_enumeration_cv D).
Proof. unfold mf_enumeration_cv. fold m_joined. apply wi_map, wi_many1, wi_joined. Qed.

(** A repetition reads every element once more at most: one run for every element of the text. *)
Lemma loop_times : forall A a b (g : mparser A), within 1 g -> rest a b g -> forall fuel rend inp cur items all m, cur <= length inp ->
  cnt (snd (m_loop fuel g (None : option (mparser unit)) rend inp cur items all m)) <= cnt m + S (length inp - cur) * (a * length inp + b).
Proof.
  intros A a b g W R. induction fuel as [|fuel IH]; intros rend inp cur items all m L; cbn [m_loop]; [cbn [snd]; apply Nat.le_add_r|]. destruct (rep_stop rend (length items)); [cbn [snd]; apply Nat.le_add_r|].
  assert (C : cnt (snd (g inp cur)) <= a * length inp + b) by (etransitivity; [apply R, L|apply Nat.add_le_mono_r, Nat.mul_le_mono_l; lia]).
  specialize (W (S (length inp)) inp cur). specialize (IH rend inp). set (x := a * length inp + b) in *. assert (X : x <= S (length inp - cur) * x) by nia.
  destruct (g inp cur) as [[v k|e c| |] m1]; cbn [fst snd both cnt] in *; [|lia..].
  destruct (W v k L ltac:(lia) eq_refl) as [W1 W2]. specialize (IH (cur + k) (v :: items) (all + k) (both m m1) W1). cbn [both cnt] in IH.
  assert (T : S (length inp - (cur + k)) * x + x <= S (length inp - cur) * x).
  { replace (S (length inp - cur)) with (S (length inp - (cur + k)) + k) by lia. nia. }
  lia.
Qed.
Lemma many_times : forall A a b (g : mparser A) r, within 1 g -> rest a b g -> forall inp off, off <= length inp ->
  cnt (snd (m_rep g r (None : option (mparser unit)) inp off)) <= S (S (length inp) * (a * length inp + b)).
Proof.
  intros A a b g r W R inp off L. unfold m_rep. assert (C : cnt (snd (g inp off)) <= a * length inp + b) by (etransitivity; [apply R, L|apply Nat.add_le_mono_r, Nat.mul_le_mono_l; lia]).
  pose proof (W (S (length inp)) inp off) as W0. pose proof (@loop_times A a b g W R (rep_fuel (rg_end r) inp off) (rg_end r) inp) as K.
  set (x := a * length inp + b) in *. assert (X : x <= S (length inp) * x) by nia.
  destruct (g inp off) as [[v k|e c| |] m]; cbn [fst snd up cnt] in *; [|lia..].
  destruct (W0 v k L ltac:(lia) eq_refl) as [W1 W2]. specialize (K (off + k) [v] k m W1).
  destruct (m_loop _ g None _ inp (off + k) [v] k m) as [d m']. cbn [fst snd up cnt] in *.
  assert (T : S (length inp - (off + k)) * x + x <= S (length inp) * x).
  { apply Nat.le_trans with ((S (length inp - (off + k)) + k) * x); [nia|]. apply Nat.mul_le_mono_r. lia. }
  lia.
Qed.
End Atoms.
