(** The parsers of the uri crate with the nesting and the number of their calls: uri/src/parsers as in Uri.v, over the combinators of Measure.v. *)
From Verif Require Import Base Core Comb Text Uri Measure.
Set Implicit Arguments.
Local Open Scope string_scope.
Local Open Scope nat_scope.
Local Open Scope list_scope.

(** ** More combinators *)
(** logging_parsers_impl.rs 28-50, 8-25 *)
Definition m_name {A} (g : mparser A) (nm : string) : mparser A := m_one (fun p => p_name p nm) g.
Definition m_log_map {A B} (g : mparser A) (f : outcome N A -> B) : mparser A := m_one (fun p => p_log_map p f) g.
(** repeat_parsers_impl.rs 9-15, 51-57; internal/parser_impl/repeat_parser_impl.rs 32-37 *)
Definition m_repeat {A} (g : mparser A) (r : range) : mparser (list A) := m_rep g r (None : option (mparser unit)).
Definition m_many_n_m {A} (g : mparser A) (n m : nat) : mparser (list A) := m_repeat g (rg_in n m).
Definition m_many1_sep {A B} (g : mparser A) (h : mparser B) : mparser (list A) := m_rep g (rg_from 1) (Some h).
(** element_parsers_impl.rs 7-146 and the Clone variants of extension/parsers/element_parsers.rs; elements_parsers_impl.rs 9-65 *)
Definition m_elm_pred_ref (f : N -> bool) : mparser N := m_leaf (p_elm_pred_ref f).
Definition m_elm_pred (f : N -> bool) : mparser N := m_map (m_elm_pred_ref f) (fun x => x).
Definition m_elm_ref_of (f : N -> bool) : mparser N := m_leaf (p_elm_ref_of f).
Definition m_elm_of (l : list N) : mparser N := m_map (m_elm_ref_of (set_contains l)) (fun x => x).
Definition m_elm_in (a b : N) : mparser N := m_map (m_elm_ref_of (range_in_contains a b)) (fun x => x).
Definition m_elm_ref (c : N) : mparser N := m_elm_pred_ref (fun x => (x =? c)%N).
Definition m_elm (c : N) : mparser N := m_map (m_elm_ref c) (fun x => x).
Definition m_elm_digit_ref : mparser N := m_elm_pred_ref is_ascii_digit.
Definition m_elm_digit : mparser N := m_elm_pred is_ascii_digit.
Definition m_elm_hex_digit : mparser N := m_elm_pred is_ascii_hex_digit.
(** parser/src/lib.rs 886-890, 910-914 *)
Definition m_elm_digit_1_9 : mparser N := m_map (m_filter_not m_elm_digit_ref is_ascii_digit_zero) (fun x => x).
Definition m_seqN (s : list N) : mparser (list N) := m_leaf (p_seqN s).
Definition m_tag (s : list N) : mparser (list N) := m_leaf (p_tag s).
Lemma er_name : forall A g (p : parser N A) nm, erases g p -> erases (m_name g nm) (p_name p nm).
Proof. intros A g p nm H. now apply (@er_one A A (fun p => p_name p nm)). Qed.
Lemma er_log_map : forall A B g (p : parser N A) (f : outcome N A -> B), erases g p -> erases (m_log_map g f) (p_log_map p f).
Proof. intros A B g p f H. now apply (@er_one A A (fun p => p_log_map p f)). Qed.
Lemma er_repeat : forall A (g : mparser A) p r, erases g p -> erases (m_repeat g r) (p_repeat p r).
Proof. intros A g p r H. now apply er_rep. Qed.
Lemma er_many_n_m : forall A (g : mparser A) p n m, erases g p -> erases (m_many_n_m g n m) (p_many_n_m p n m).
Proof. intros A g p n m H. now apply er_rep. Qed.
Lemma er_many1_sep : forall A B (g : mparser A) p (h : mparser B) q, erases g p -> erases h q -> erases (m_many1_sep g h) (p_many1_sep p q).
Proof. intros A B g p h q H1 H2. now apply er_rep. Qed.
Lemma er_elm_pred_ref : forall f, erases (m_elm_pred_ref f) (p_elm_pred_ref f).
Proof. intros f. apply er_leaf. Qed.
Lemma er_elm_pred : forall f, erases (m_elm_pred f) (p_elm_pred f).
Proof. intros f. apply er_map, er_leaf. Qed.
Lemma er_elm_ref_of : forall f, erases (m_elm_ref_of f) (p_elm_ref_of f).
Proof. intros f. apply er_leaf. Qed.
Lemma er_elm_of : forall l, erases (m_elm_of l) (p_elm_of l).
Proof. intros l. apply er_map, er_leaf. Qed.
Lemma er_elm_in : forall a b, erases (m_elm_in a b) (p_elm_in a b).
Proof. intros a b. apply er_map, er_leaf. Qed.
Lemma er_elm_ref : forall c, erases (m_elm_ref c) (p_elm_ref c).
Proof. intros c. apply er_leaf. Qed.
Lemma er_elm : forall c, erases (m_elm c) (p_elm c).
Proof. intros c. apply er_map, er_leaf. Qed.
Lemma er_elm_digit : erases m_elm_digit p_elm_digit.
Proof. apply er_map, er_leaf. Qed.
Lemma er_elm_digit_ref : erases m_elm_digit_ref p_elm_digit_ref.
Proof. apply er_leaf. Qed.
Lemma er_elm_hex_digit : erases m_elm_hex_digit p_elm_hex_digit.
Proof. apply er_map, er_leaf. Qed.
Lemma er_elm_digit_1_9 : erases m_elm_digit_1_9 p_elm_digit_1_9.
Proof. apply er_map, er_filter_not, er_leaf. Qed.
Lemma er_seqN : forall s, erases (m_seqN s) (p_seqN s).
Proof. intros s. apply er_leaf. Qed.
Lemma er_tag : forall s, erases (m_tag s) (p_tag s).
Proof. intros s. apply er_leaf. Qed.
Ltac er_step := first [assumption | match goal with |- erases (m_id _) _ => apply er_id end | apply er_name | apply er_log_map | apply er_map_panic | apply er_map_res | apply er_collect | apply er_attempt | apply er_discard
  | apply er_elm | apply er_elm_ref | apply er_elm_of | apply er_elm_in | apply er_elm_digit_1_9 | apply er_elm_digit | apply er_elm_digit_ref | apply er_elm_hex_digit | apply er_elm_pred_ref | apply er_elm_ref_of
  | apply er_seqN | apply er_tag
  | apply er_map | apply er_and | apply er_skip_left | apply er_skip_right | apply er_surround | apply er_opt | apply er_or
  | apply er_many1_sep | apply er_many_n_m | apply er_count | apply er_many1 | apply er_many0 | apply er_repeat].

Section Grammar.
Variable v6_parse : list N -> ipv6 + unit.
(** ** Parsers (uri/src/parsers) *)
(** parser/src/extension/parsers/element_parsers.rs 65-69, 101-105. *)
Definition m_elm_alpha_ref : mparser N := m_elm_pred_ref is_ascii_alpha.
Definition m_elm_hex_digit_ref : mparser N := m_elm_pred_ref is_ascii_hex_digit.
(** basic_parsers.rs 24-47: elm_ref_of(b"..."): Set for [u8; N]. *)
Definition mu_elm_ref_of (l : bytes) : mparser N := m_elm_ref_of (set_contains l).

(** basic_parsers.rs 24-28. *)
Definition mu_unreserved : mparser bytes :=
  m_name (m_collect (m_or (m_or m_elm_alpha_ref m_elm_digit_ref) (mu_elm_ref_of (bs "-._~")))) "unreserved".
(** basic_parsers.rs 17-21. *)
Definition mu_pct_encoded : mparser bytes :=
  m_name (m_collect (m_and (m_and (m_elm_ref (chr "%")) m_elm_hex_digit_ref) m_elm_hex_digit_ref)) "pct-encoded".
(** basic_parsers.rs 41-43. *)
Definition mu_sub_delims : mparser bytes := m_collect (m_name (mu_elm_ref_of (bs "!$&'()*+,;=")) "sub-delims").
(** basic_parsers.rs 45-47. *)
Definition mu_sub_delims_without_eq_ampersand : mparser bytes :=
  m_collect (m_name (mu_elm_ref_of (bs "!$'()*+,;")) "sub-delims").
(** basic_parsers.rs 36-38, 31-33. *)
Definition mu_gen_delims : mparser bytes := m_collect (m_name (mu_elm_ref_of (bs ":/?#[]@")) "gen-delims").
Definition mu_reserved : mparser bytes := m_name (m_or mu_gen_delims mu_sub_delims) "reserved".
(** basic_parsers.rs 4-8. *)
Definition mu_pchar : mparser bytes :=
  m_name (m_collect (m_or (m_or (m_or mu_unreserved mu_pct_encoded) mu_sub_delims) (m_collect (mu_elm_ref_of (bs ":@"))))) "pchar".
(** basic_parsers.rs 10-14. *)
Definition mu_pchar_without_eq_amp : mparser bytes :=
  m_name (m_collect (m_or (m_or (m_or mu_unreserved mu_pct_encoded) mu_sub_delims_without_eq_ampersand)
                          (m_collect (mu_elm_ref_of (bs ":@"))))) "pchar".

(** .map(|e| e.to_vec()).map_res(String::from_utf8) *)
Definition mu_to_string (p : mparser bytes) : mparser bytes := m_map_res (m_map p (fun e => e)) from_utf8.

(** scheme_parsers.rs 6-11. *)
Definition mu_scheme : mparser bytes :=
  m_map (mu_to_string (m_collect
    (m_and m_elm_alpha_ref (m_many0 (m_or (m_or m_elm_alpha_ref m_elm_digit_ref) (mu_elm_ref_of (bs "+-.")))))))
    (fun e => e).

(** ip_v4_address_parsers.rs 16-29. *)
Definition mu_dec_octet : mparser N :=
  let p1 := m_collect m_elm_digit in
  let p2 := m_collect (m_and m_elm_digit_1_9 m_elm_digit) in
  let p3 := m_collect (m_and (m_and (m_elm (chr "1")) m_elm_digit) m_elm_digit) in
  let p4 := m_collect (m_and (m_and (m_elm (chr "2")) (m_elm_in (chr "0") (chr "4"))) m_elm_digit) in
  let p5 := m_collect (m_and (m_and (m_elm (chr "2")) (m_elm (chr "5"))) (m_elm_in (chr "0") (chr "5"))) in
  m_name
    (m_map_res
      (mu_to_string (m_collect
        (m_or (m_or (m_or (m_or (m_attempt p5) (m_attempt p4)) (m_attempt p3)) (m_attempt p2)) p1)))
      (parse_uint 255)) "dec-octet".
(** ip_v4_address_parsers.rs 5-9, with the map to Ipv4Addr: d - '.' + d - '.' + d - '.' + d, left associative. *)
Definition mu_ip_v4_address : mparser ipv4 :=
  let dot := m_elm (chr ".") in
  m_name
    (m_id (m_and (m_skip_right (m_and (m_skip_right (m_and (m_skip_right mu_dec_octet dot) mu_dec_octet) dot) mu_dec_octet) dot) mu_dec_octet))
    "ip_v4_address".

(** ip_v6_address_parsers.rs 169-178, with the map to H16. *)
Definition mu_h16 : mparser N :=
  m_name (m_id (m_map_res (mu_to_string (m_collect (m_many_n_m m_elm_hex_digit 1 4))) (parse_hex 65535))) "h16".
(** ip_v6_address_parsers.rs 180-184, 196-198. *)
Definition mu_ls32 : mparser ls32_value :=
  m_or (m_attempt (m_map (m_and (m_skip_right mu_h16 (m_elm (chr ":"))) mu_h16) (fun ab => Ls32 (fst ab) (snd ab))))
       (m_map mu_ip_v4_address Ls32Ipv4).
(** ip_v6_address_parsers.rs 8-21. *)
Definition mu_ip_v6_address1 : mparser ipv6 :=
  m_map_panic (m_and (m_count (m_skip_right mu_h16 (m_elm (chr ":"))) 6) mu_ls32)
    (fun '(v, b) => option_map (fun g => g ++ ls32_groups b) (index_n v 6)).
(** ip_v6_address_parsers.rs 24-37. *)
Definition mu_ip_v6_address2 : mparser ipv6 :=
  m_map_panic (m_and (m_skip_left (m_seqN (bs "::")) (m_count (m_skip_right mu_h16 (m_elm (chr ":"))) 5)) mu_ls32)
    (fun '(v, b) => option_map (fun g => [0%N] ++ g ++ ls32_groups b) (index_n v 5)).
(** ip_v6_address_parsers.rs 40-71. *)
Definition mu_ip_v6_address3 : mparser ipv6 :=
  m_map_panic (m_and (m_and (m_skip_right (m_opt mu_h16) (m_seqN (bs "::")))
                            (m_count (m_skip_right mu_h16 (m_elm (chr ":"))) 4)) mu_ls32)
    (fun '((h, v), b) =>
       option_map (fun g => [match h with Some x => x | None => 0%N end; 0%N] ++ g ++ ls32_groups b) (index_n v 4)).
(** ip_v6_address_parsers.rs 73-82: the closure's result is (). *)
Definition mu_ip_v6_address_p1 (n : nat) : mparser bytes :=
  m_collect (m_opt (m_map (m_and mu_h16 (m_many_n_m (m_skip_left (m_elm (chr ":")) mu_h16) 0 n)) (fun _ => tt))).
(** ip_v6_address_parsers.rs 84-87. *)
Definition mu_ip_v6_address_p2 (n m : nat) : mparser bytes :=
  let p2 := m_collect (m_and (m_count (m_and mu_h16 (m_elm (chr ":"))) m) mu_ls32) in
  m_collect (m_and (m_and (mu_ip_v6_address_p1 n) (m_seqN (bs "::"))) p2).
(** .map(|e| e.to_vec()).map_res(String::from_utf8).map_res(|s| s.parse::<Ipv6Addr>()) *)
Definition mu_to_ipv6 (p : mparser bytes) : mparser ipv6 := m_map_res (mu_to_string p) v6_parse.
(** ip_v6_address_parsers.rs 90-95, 98-103, 106-111, 114-120, 123-129, 132-138. *)
Definition mu_ip_v6_address4 : mparser ipv6 := mu_to_ipv6 (mu_ip_v6_address_p2 1 3).
Definition mu_ip_v6_address5 : mparser ipv6 := mu_to_ipv6 (mu_ip_v6_address_p2 2 2).
Definition mu_ip_v6_address6 : mparser ipv6 := mu_to_ipv6 (mu_ip_v6_address_p2 3 1).
Definition mu_ip_v6_address7 : mparser ipv6 :=
  mu_to_ipv6 (m_collect (m_and (m_and (mu_ip_v6_address_p1 4) (m_seqN (bs "::"))) mu_ls32)).
Definition mu_ip_v6_address8 : mparser ipv6 :=
  mu_to_ipv6 (m_collect (m_and (m_and (mu_ip_v6_address_p1 5) (m_seqN (bs "::"))) mu_h16)).
Definition mu_ip_v6_address9 : mparser ipv6 :=
  mu_to_ipv6 (m_collect (m_and (mu_ip_v6_address_p1 5) (m_seqN (bs "::")))).
(** ip_v6_address_parsers.rs 140-151. *)
Definition mu_ip_v6_address : mparser ipv6 :=
  m_name
    (m_or (m_or (m_or (m_or (m_or (m_or (m_or (m_or
      (m_attempt mu_ip_v6_address1) (m_attempt mu_ip_v6_address2)) (m_attempt mu_ip_v6_address3)) (m_attempt mu_ip_v6_address4))
      (m_attempt mu_ip_v6_address5)) (m_attempt mu_ip_v6_address6)) (m_attempt mu_ip_v6_address7)) (m_attempt mu_ip_v6_address8))
      mu_ip_v6_address9) "ip_v6_address".

(** host_parsers.rs 22-31. *)
Definition mu_ip_v_future : mparser bytes :=
  m_name
    (mu_to_string (m_collect
      (m_and (m_and (m_and (m_elm_ref (chr "v")) (m_many1 m_elm_hex_digit)) (m_elm (chr ".")))
             (m_many1 (m_or (m_or mu_unreserved mu_sub_delims) (m_collect (m_elm_ref (chr ":"))))))))
    "ipv-future".
(** host_parsers.rs 15-19. *)
Definition mu_ip_literal_p : mparser ip_literal :=
  m_name
    (m_skip_right
      (m_skip_left (m_elm_ref (chr "[")) (m_or (m_attempt (m_map mu_ip_v6_address Ipv6Address)) (m_map mu_ip_v_future IpvFuture)))
      (m_elm_ref (chr "]")))
    "ip-literal".
(** host_parsers.rs 34-42. *)
Definition mu_reg_name : mparser host_name :=
  m_name
    (m_map
      (mu_to_string (m_collect (m_many1 (m_or (m_or (m_attempt mu_unreserved) (m_attempt mu_pct_encoded)) mu_sub_delims))))
      RegName)
    "reg-name".
(** host_parsers.rs 9-12. *)
Definition mu_host : mparser host_name :=
  m_name
    (m_or (m_or (m_attempt (m_map mu_ip_literal_p IpLiteral)) (m_attempt (m_map mu_ip_v4_address Ipv4Address))) mu_reg_name) "host".
(** port_parsers.rs 3-9. *)
Definition mu_port : mparser N :=
  m_name (m_map_res (m_map_res (m_many0 m_elm_digit) from_utf8) (parse_uint 65535)) "port".
(** user_info_parsers.rs 6-12. *)
Definition mu_user_info_p : mparser user_info :=
  let p := m_or (m_or (m_attempt mu_unreserved) (m_attempt mu_pct_encoded)) mu_sub_delims in
  m_name
    (m_map
      (m_and (mu_to_string (m_collect (m_many0 p)))
             (m_opt (m_skip_left (m_elm (chr ":")) (mu_to_string (m_collect (m_many1 p))))))
      (fun np => mk_user (fst np) (snd np)))
    "user_info".
(** authority_parsers.rs 9-12. *)
Definition mu_authority_p : mparser authority :=
  m_map
    (m_and (m_and (m_opt (m_skip_right mu_user_info_p (m_elm_ref (chr "@")))) mu_host)
           (m_opt (m_skip_left (m_elm_ref (chr ":")) mu_port)))
    (fun '((u, h), p) => mk_authority h p u).

(** path_parsers.rs 92-94, 97-99, 103-108. *)
Definition mu_segment : mparser bytes := m_name (m_collect (m_many0 mu_pchar)) "segment".
Definition mu_segment_nz : mparser bytes := m_name (m_collect (m_many1 mu_pchar)) "segment-nz".
Definition mu_segment_nz_nc : mparser bytes :=
  m_name (m_collect (m_many1 (m_or (m_or (m_or mu_unreserved mu_pct_encoded) mu_sub_delims) (m_collect (m_elm (chr "@")))))) "segment-nz-nc".
(** path_parsers.rs 19, 29, 57, 75: (elm(b'/') + segment()).collect() *)
Definition mu_slash_segment : mparser bytes := m_collect (m_and (m_elm (chr "/")) mu_segment).
(** path_parsers.rs 17-25. *)
Definition mu_path_abempty (required : bool) : mparser path :=
  m_name (m_map (m_repeat (mu_to_string mu_slash_segment) (rg_from (if required then 1 else 0))) AbemptyPath) "path-abempty".
(** path_parsers.rs 56-71. *)
Definition mu_path_rootless : mparser path :=
  m_name (m_map (m_map_panic (m_map (m_and mu_segment_nz (m_many0 mu_slash_segment)) (fun ab => fst ab :: snd ab)) strings_of)
                RootlessPath) "path-rootless".
(** path_parsers.rs 74-89. *)
Definition mu_path_noscheme : mparser path :=
  m_name (m_map (m_map_panic (m_map (m_and mu_segment_nz_nc (m_many0 mu_slash_segment)) (fun ab => fst ab :: snd ab)) strings_of)
                RootlessPath) "path-noscheme".
(** path_parsers.rs 28-53. *)
Definition mu_path_absolute : mparser path :=
  let p := m_opt (m_map (m_and mu_segment_nz (m_many0 mu_slash_segment)) (fun ab => fst ab :: snd ab)) in
  m_name
    (m_map
      (m_map_panic
        (m_map (m_and (m_collect (m_elm (chr "/"))) p) (fun ab => match snd ab with None => [fst ab] | Some b => fst ab :: b end))
        strings_of)
      AbsolutePath)
    "path-absolute".
(** path_parsers.rs 10-14. *)
Definition mu_path_p : mparser (option path) :=
  m_name (m_opt (m_or (m_or (m_or (m_attempt mu_path_rootless) (m_attempt (mu_path_abempty true))) (m_attempt mu_path_absolute))
                      mu_path_noscheme)) "path".
(** hier_part_parsers.rs 10-14. *)
Definition mu_hier_part_p : mparser (option hier_part) :=
  let p1 := m_map (m_and (m_skip_left (m_seqN (bs "//")) mu_authority_p) (mu_path_abempty false))
                  (fun ab => mk_hier (Some (fst ab)) (snd ab)) in
  let p2 := m_map (m_or (m_attempt (mu_path_abempty true)) mu_path_rootless) (fun e => mk_hier None e) in
  m_opt (m_or (m_attempt p1) p2).
(** query_parsers.rs 6-20. *)
Definition mu_code_point : mparser bytes :=
  mu_to_string (m_collect (m_many0 (m_or mu_pchar_without_eq_amp (m_collect (m_elm_of (bs "/?")))))).
Definition mu_key_values : mparser (bytes * option bytes) :=
  m_and mu_code_point (m_opt (m_skip_left (m_elm (chr "=")) mu_code_point)).
Definition mu_query_p : mparser query :=
  m_map (m_and mu_key_values (m_many0 (m_skip_left (m_elm (chr "&")) mu_key_values))) (fun ab => fst ab :: snd ab).
(** fragment_parsers.rs 5-12. *)
Definition mu_fragment : mparser bytes :=
  m_name (mu_to_string (m_collect (m_many0 (m_or mu_pchar (m_collect (mu_elm_ref_of (bs "/?"))))))) "fragment".
(** uri_parsers.rs 9-11. *)
Definition mu_absolute_uri : mparser uri :=
  m_map
    (m_and (m_and (m_skip_right (m_opt mu_scheme) (m_elm (chr ":"))) mu_hier_part_p) (m_opt (m_skip_left (m_elm (chr "?")) mu_query_p)))
    (fun '((a, b), c) => mk_uri a b c None).
(** uri_parsers.rs 14-17. *)
Definition mu_uri_p : mparser uri :=
  m_map
    (m_and (m_and (m_and (m_skip_right (m_opt mu_scheme) (m_elm (chr ":"))) mu_hier_part_p)
                  (m_opt (m_skip_left (m_elm (chr "?")) mu_query_p)))
           (m_opt (m_skip_left (m_elm (chr "#")) mu_fragment)))
    (fun '(((s, h), q), f) => mk_uri s h q f).


(** ** The outcomes are those of Uri.v *)
Lemma er_elm_alpha_ref : erases m_elm_alpha_ref p_elm_alpha_ref.
Proof. apply er_leaf. Qed.
Lemma er_elm_hex_digit_ref : erases m_elm_hex_digit_ref p_elm_hex_digit_ref.
Proof. apply er_leaf. Qed.
Lemma er_elm_set : forall l, erases (mu_elm_ref_of l) (elm_ref_of l).
Proof. intros l. apply er_leaf. Qed.
Lemma er_unreserved : erases mu_unreserved unreserved.
Proof. intros; unfold mu_unreserved, unreserved; repeat first [apply er_elm_alpha_ref | apply er_elm_set | er_step]. Qed.
Lemma er_pct_encoded : erases mu_pct_encoded pct_encoded.
Proof. intros; unfold mu_pct_encoded, pct_encoded; repeat first [apply er_elm_hex_digit_ref | er_step]. Qed.
Lemma er_sub_delims : erases mu_sub_delims sub_delims.
Proof. intros; unfold mu_sub_delims, sub_delims; repeat first [apply er_elm_set | er_step]. Qed.
Lemma er_sub_delims_without_eq_ampersand : erases mu_sub_delims_without_eq_ampersand sub_delims_without_eq_ampersand.
Proof. intros; unfold mu_sub_delims_without_eq_ampersand, sub_delims_without_eq_ampersand; repeat first [apply er_elm_set | er_step]. Qed.
Lemma er_gen_delims : erases mu_gen_delims gen_delims.
Proof. intros; unfold mu_gen_delims, gen_delims; repeat first [apply er_elm_set | er_step]. Qed.
Lemma er_reserved : erases mu_reserved reserved.
Proof. intros; unfold mu_reserved, reserved; repeat first [apply er_sub_delims | apply er_gen_delims | er_step]. Qed.
Lemma er_pchar : erases mu_pchar pchar.
Proof. intros; unfold mu_pchar, pchar; repeat first [apply er_unreserved | apply er_pct_encoded | apply er_sub_delims | apply er_elm_set | er_step]. Qed.
Lemma er_pchar_without_eq_amp : erases mu_pchar_without_eq_amp pchar_without_eq_amp.
Proof. intros; unfold mu_pchar_without_eq_amp, pchar_without_eq_amp; repeat first [apply er_unreserved | apply er_pct_encoded | apply er_sub_delims_without_eq_ampersand | apply er_elm_set | er_step]. Qed.
Lemma er_to_string : forall g p, erases g p -> erases (mu_to_string g) (to_string p).
Proof. intros; unfold mu_to_string, to_string; repeat first [er_step]. Qed.
Lemma er_scheme : erases mu_scheme scheme.
Proof. intros; unfold mu_scheme, scheme; repeat first [apply er_elm_alpha_ref | apply er_to_string | apply er_elm_set | er_step]. Qed.
Lemma er_dec_octet : erases mu_dec_octet dec_octet.
Proof. intros; unfold mu_dec_octet, dec_octet; repeat first [apply er_to_string | er_step]. Qed.
Lemma er_ip_v4_address : erases mu_ip_v4_address ip_v4_address.
Proof. intros; unfold mu_ip_v4_address, ip_v4_address; repeat first [apply er_dec_octet | er_step]. Qed.
Lemma er_h16 : erases mu_h16 h16.
Proof. intros; unfold mu_h16, h16; repeat first [apply er_to_string | er_step]. Qed.
Lemma er_ls32 : erases mu_ls32 ls32.
Proof. intros; unfold mu_ls32, ls32; repeat first [apply er_ip_v4_address | apply er_h16 | er_step]. Qed.
Lemma er_ip_v6_address1 : erases mu_ip_v6_address1 ip_v6_address1.
Proof. intros; unfold mu_ip_v6_address1, ip_v6_address1; repeat first [apply er_h16 | apply er_ls32 | er_step]. Qed.
Lemma er_ip_v6_address2 : erases mu_ip_v6_address2 ip_v6_address2.
Proof. intros; unfold mu_ip_v6_address2, ip_v6_address2; repeat first [apply er_h16 | apply er_ls32 | er_step]. Qed.
Lemma er_ip_v6_address3 : erases mu_ip_v6_address3 ip_v6_address3.
Proof. intros; unfold mu_ip_v6_address3, ip_v6_address3; repeat first [apply er_h16 | apply er_ls32 | er_step]. Qed.
Lemma er_ip_v6_address_p1 : forall n, erases (mu_ip_v6_address_p1 n) (ip_v6_address_p1 n).
Proof. intros; unfold mu_ip_v6_address_p1, ip_v6_address_p1; repeat first [apply er_h16 | er_step]. Qed.
Lemma er_ip_v6_address_p2 : forall n m, erases (mu_ip_v6_address_p2 n m) (ip_v6_address_p2 n m).
Proof. intros; unfold mu_ip_v6_address_p2, ip_v6_address_p2; repeat first [apply er_h16 | apply er_ls32 | apply er_ip_v6_address_p1 | er_step]. Qed.
Lemma er_to_ipv6 : forall g p, erases g p -> erases (mu_to_ipv6 g) (to_ipv6 v6_parse p).
Proof. intros; unfold mu_to_ipv6, to_ipv6; repeat first [apply er_to_string | er_step]. Qed.
Lemma er_ip_v6_address4 : erases mu_ip_v6_address4 (ip_v6_address4 v6_parse).
Proof. intros; unfold mu_ip_v6_address4, ip_v6_address4; repeat first [apply er_ip_v6_address_p2 | apply er_to_ipv6 | er_step]. Qed.
Lemma er_ip_v6_address5 : erases mu_ip_v6_address5 (ip_v6_address5 v6_parse).
Proof. intros; unfold mu_ip_v6_address5, ip_v6_address5; repeat first [apply er_ip_v6_address_p2 | apply er_to_ipv6 | er_step]. Qed.
Lemma er_ip_v6_address6 : erases mu_ip_v6_address6 (ip_v6_address6 v6_parse).
Proof. intros; unfold mu_ip_v6_address6, ip_v6_address6; repeat first [apply er_ip_v6_address_p2 | apply er_to_ipv6 | er_step]. Qed.
Lemma er_ip_v6_address7 : erases mu_ip_v6_address7 (ip_v6_address7 v6_parse).
Proof. intros; unfold mu_ip_v6_address7, ip_v6_address7; repeat first [apply er_ls32 | apply er_ip_v6_address_p1 | apply er_to_ipv6 | er_step]. Qed.
Lemma er_ip_v6_address8 : erases mu_ip_v6_address8 (ip_v6_address8 v6_parse).
Proof. intros; unfold mu_ip_v6_address8, ip_v6_address8; repeat first [apply er_h16 | apply er_ip_v6_address_p1 | apply er_to_ipv6 | er_step]. Qed.
Lemma er_ip_v6_address9 : erases mu_ip_v6_address9 (ip_v6_address9 v6_parse).
Proof. intros; unfold mu_ip_v6_address9, ip_v6_address9; repeat first [apply er_ip_v6_address_p1 | apply er_to_ipv6 | er_step]. Qed.
Lemma er_ip_v6_address : erases mu_ip_v6_address (ip_v6_address v6_parse).
Proof. intros; unfold mu_ip_v6_address, ip_v6_address; repeat first [apply er_ip_v6_address1 | apply er_ip_v6_address2 | apply er_ip_v6_address3 | apply er_ip_v6_address4 | apply er_ip_v6_address5 | apply er_ip_v6_address6 | apply er_ip_v6_address7 | apply er_ip_v6_address8 | apply er_ip_v6_address9 | er_step]. Qed.
Lemma er_ip_v_future : erases mu_ip_v_future ip_v_future.
Proof. intros; unfold mu_ip_v_future, ip_v_future; repeat first [apply er_unreserved | apply er_sub_delims | apply er_to_string | er_step]. Qed.
Lemma er_ip_literal_p : erases mu_ip_literal_p (ip_literal_p v6_parse).
Proof. intros; unfold mu_ip_literal_p, ip_literal_p; repeat first [apply er_ip_v6_address | apply er_ip_v_future | er_step]. Qed.
Lemma er_reg_name : erases mu_reg_name reg_name.
Proof. intros; unfold mu_reg_name, reg_name; repeat first [apply er_unreserved | apply er_pct_encoded | apply er_sub_delims | apply er_to_string | er_step]. Qed.
Lemma er_host : erases mu_host (host v6_parse).
Proof. intros; unfold mu_host, host; repeat first [apply er_ip_v4_address | apply er_ip_literal_p | apply er_reg_name | er_step]. Qed.
Lemma er_port : erases mu_port port.
Proof. intros; unfold mu_port, port; repeat first [er_step]. Qed.
Lemma er_user_info_p : erases mu_user_info_p user_info_p.
Proof. intros; unfold mu_user_info_p, user_info_p; repeat first [apply er_unreserved | apply er_pct_encoded | apply er_sub_delims | apply er_to_string | er_step]. Qed.
Lemma er_authority_p : erases mu_authority_p (authority_p v6_parse).
Proof. intros; unfold mu_authority_p, authority_p; repeat first [apply er_host | apply er_port | apply er_user_info_p | er_step]. Qed.
Lemma er_segment : erases mu_segment segment.
Proof. intros; unfold mu_segment, segment; repeat first [apply er_pchar | er_step]. Qed.
Lemma er_segment_nz : erases mu_segment_nz segment_nz.
Proof. intros; unfold mu_segment_nz, segment_nz; repeat first [apply er_pchar | er_step]. Qed.
Lemma er_segment_nz_nc : erases mu_segment_nz_nc segment_nz_nc.
Proof. intros; unfold mu_segment_nz_nc, segment_nz_nc; repeat first [apply er_unreserved | apply er_pct_encoded | apply er_sub_delims | er_step]. Qed.
Lemma er_slash_segment : erases mu_slash_segment slash_segment.
Proof. intros; unfold mu_slash_segment, slash_segment; repeat first [apply er_segment | er_step]. Qed.
Lemma er_path_abempty : forall b, erases (mu_path_abempty b) (path_abempty b).
Proof. intros; unfold mu_path_abempty, path_abempty; repeat first [apply er_to_string | apply er_slash_segment | er_step]. Qed.
Lemma er_path_rootless : erases mu_path_rootless path_rootless.
Proof. intros; unfold mu_path_rootless, path_rootless; repeat first [apply er_segment_nz | apply er_slash_segment | er_step]. Qed.
Lemma er_path_noscheme : erases mu_path_noscheme path_noscheme.
Proof. intros; unfold mu_path_noscheme, path_noscheme; repeat first [apply er_segment_nz_nc | apply er_slash_segment | er_step]. Qed.
Lemma er_path_absolute : erases mu_path_absolute path_absolute.
Proof. intros; unfold mu_path_absolute, path_absolute; repeat first [apply er_segment_nz | apply er_slash_segment | er_step]. Qed.
Lemma er_path_p : erases mu_path_p path_p.
Proof. intros; unfold mu_path_p, path_p; repeat first [apply er_path_abempty | apply er_path_rootless | apply er_path_noscheme | apply er_path_absolute | er_step]. Qed.
Lemma er_hier_part_p : erases mu_hier_part_p (hier_part_p v6_parse).
Proof. intros; unfold mu_hier_part_p, hier_part_p; repeat first [apply er_authority_p | apply er_path_abempty | apply er_path_rootless | er_step]. Qed.
Lemma er_code_point : erases mu_code_point code_point.
Proof. intros; unfold mu_code_point, code_point; repeat first [apply er_pchar_without_eq_amp | apply er_to_string | er_step]. Qed.
Lemma er_key_values : erases mu_key_values key_values.
Proof. intros; unfold mu_key_values, key_values; repeat first [apply er_code_point | er_step]. Qed.
Lemma er_query_p : erases mu_query_p query_p.
Proof. intros; unfold mu_query_p, query_p; repeat first [apply er_key_values | er_step]. Qed.
Lemma er_fragment : erases mu_fragment fragment.
Proof. intros; unfold mu_fragment, fragment; repeat first [apply er_pchar | apply er_to_string | apply er_elm_set | er_step]. Qed.
Lemma er_absolute_uri : erases mu_absolute_uri (absolute_uri v6_parse).
Proof. intros; unfold mu_absolute_uri, absolute_uri; repeat first [apply er_scheme | apply er_hier_part_p | apply er_query_p | er_step]. Qed.
Lemma er_uri_p : erases mu_uri_p (uri_p v6_parse).
Proof. intros; unfold mu_uri_p, uri_p; repeat first [apply er_scheme | apply er_hier_part_p | apply er_query_p | apply er_fragment | er_step]. Qed.
End Grammar.
