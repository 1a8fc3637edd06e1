(** The unit tests and documentation examples of the repository, run on the model (tests, not proofs: they check that
    the model agrees with the results the authors expect of the code).  Each example names the test it copies. *)
From Verif Require Import Base Core Comb Text.
Set Implicit Arguments.
Local Open Scope string_scope.
Local Open Scope nat_scope.
Local Open Scope list_scope.

(** [parse_as_result(input).is_ok()], [is_err()], [unwrap()]. *)
Definition is_ok {I A} (p : parser I A) (inp : list I) : bool := match parse p inp with Success _ _ => true | _ => false end.
Definition is_err {I A} (p : parser I A) (inp : list I) : bool := match parse p inp with Failure _ _ => true | _ => false end.
Definition unwrap {I A} (p : parser I A) (inp : list I) : option A := success (parse p inp).
Local Ltac run := repeat split; vm_compute; reflexivity.

(** ** parser/src/lib.rs 1398-1917 *)
(** 1399-1418 *)
Example test_attempt :
  is_ok (p_or (p_attempt (p_failed Incomplete Committed)) (p_elm_ref (chr "b"))) (bs "b") = true /\
  is_ok (p_or (p_attempt (p_and (p_and (p_tag (bs "abra")) p_elm_space) (p_tag (bs "abra"))))
              (p_and (p_and (p_tag (bs "abra")) p_elm_space) (p_tag (bs "cadabra!")))) (bs "abra cadabra!") = true.
Proof. run. Qed.
(** 1421-1428 *)
Example test_successful_in_closure : unwrap (p_successful_lazy (fun _ => chr "a")) (bs "a") = Some (chr "a").
Proof. run. Qed.
(** 1431-1437 *)
Example test_elem : unwrap (p_elm (chr "a")) (bs "a") = Some (chr "a").
Proof. run. Qed.
(** 1440-1462: the regular expressions as functions that find their matches. *)
Example test_regex :
  let re1 s := if list_eq_dec N.eq_dec s (bs "abc") then Some (bs "abc") else None in
  unwrap (p_name (p_regex re1) "regex_1") (bs "abc") = Some (bs "abc") /\
  is_err (p_name (p_regex re1) "regex_1") (bs "xbc") = true.
Proof. run. Qed.
(** 1465-1481 *)
Example test_elm_of :
  let p := p_elm_of_set (range_in_contains (chr "a") (chr "f")) in
  map (fun i => unwrap p (skipn i (bs "abcdef"))) (seq 0 6) = map Some (bs "abcdef") /\ is_err p (bs "g") = true.
Proof. run. Qed.
(** 1484-1500 *)
Example test_none_of :
  let p := p_none_of_set (range_in_contains (chr "a") (chr "f")) in
  map (fun i => is_err p (skipn i (bs "abcdef"))) (seq 0 6) = repeat true 6 /\ unwrap p (bs "g") = Some (chr "g").
Proof. run. Qed.
(** 1503-1514 *)
Example test_peek :
  unwrap (p_and (p_peek (p_elm_ref (chr "a"))) (p_tag (bs "aname"))) (bs "aname") = Some (chr "a", bs "aname").
Proof. run. Qed.
(** 1517-1532 *)
Example test_repeat :
  let p := p_collect (p_repeat (p_elm_ref (chr "a")) (rg_to_in 3)) in
  is_ok p [] = true /\ unwrap p (bs "a") = Some (bs "a") /\ unwrap p (bs "aa") = Some (bs "aa") /\
  unwrap p (bs "aaa") = Some (bs "aaa").
Proof. run. Qed.
(** 1535-1547 *)
Example test_many_0 :
  let p := p_collect (p_many0 (p_elm_ref (chr "a"))) in
  unwrap p (bs "a") = Some (bs "a") /\ unwrap p (bs "aa") = Some (bs "aa").
Proof. run. Qed.
(** 1550-1562 *)
Example test_many_1 :
  let p := p_collect (p_many1 (p_elm_ref (chr "a"))) in
  is_err p [] = true /\ unwrap p (bs "a") = Some (bs "a") /\ unwrap p (bs "aa") = Some (bs "aa").
Proof. run. Qed.
(** 1565-1580 *)
Example test_many_n_m :
  let p := p_and (p_collect (p_many_n_m (p_elm_ref (chr "a")) 1 2)) p_end in
  is_err p [] = true /\ unwrap p (bs "a") = Some (bs "a", tt) /\ unwrap p (bs "aa") = Some (bs "aa", tt) /\
  is_err p (bs "aaa") = true.
Proof. run. Qed.
(** 1583-1591 *)
Example test_count_sep :
  unwrap (p_count_sep (p_map (p_elm_ref (chr "a")) (fun e => e)) 3 (p_elm_ref (chr ","))) (bs "a,a,a") = Some (bs "aaa").
Proof. run. Qed.
(** 1594-1600 *)
Example test_seq : unwrap (p_seqN (bs "abc")) (bs "abc") = Some (bs "abc").
Proof. run. Qed.
(** 1603-1611 *)
Example test_tag : unwrap (p_or (p_attempt (p_tag (bs "abc"))) (p_tag (bs "abe"))) (bs "abe") = Some (bs "abe").
Proof. run. Qed.
(** 1614-1621 *)
Example test_tag_no_case : unwrap (p_tag_no_case (bs "abc")) (bs "AbC") = Some (bs "abc").
Proof. run. Qed.
(** 1624-1633 *)
Example test_opt : unwrap (p_opt (p_seqN (bs "abc"))) (bs "abc") = Some (Some (bs "abc")).
Proof. run. Qed.
(** 1636-1641 *)
Example test_not : is_ok (p_not (p_seqN (bs "abc"))) (bs "def") = true.
Proof. run. Qed.
(** 1644-1664 *)
Example test_take :
  unwrap (p_flat_map (p_take 1) (fun size => p_take (N.to_nat (hd 0%N size)))) (3%N :: bs "abc") = Some (bs "abc").
Proof. run. Qed.
(** 1667-1676 *)
Example test_take_2 :
  is_ok (p_collect (p_and (p_and (p_flat_map (p_and (p_elm_ref (chr "a")) (p_elm_ref (chr "b")))
                                             (fun e => p_map (p_skip 1) (fun _ => e))) p_elm_any_ref) p_end))
        (bs "abcd") = true.
Proof. run. Qed.
(** 1679-1689: the digits are found although they do not begin the input. *)
Example test_take_while0 :
  let p := p_map_res (p_take_while0 is_ascii_digit) from_utf8 in
  unwrap p (bs "a123b") = Some (bs "123") /\ is_ok p (bs "def") = true.
Proof. run. Qed.
(** 1692-1702 *)
Example test_take_while1 :
  let p := p_map_res (p_take_while1 is_ascii_digit) from_utf8 in
  unwrap p (bs "a123b") = Some (bs "123") /\ is_err p (bs "def") = true.
Proof. run. Qed.
(** 1705-1727 *)
Example test_take_while_n_m :
  let p := p_map_res (p_take_while_n_m 1 3 is_ascii_digit) from_utf8 in
  unwrap p (bs "a1b") = Some (bs "1") /\ unwrap p (bs "a12b") = Some (bs "12") /\
  unwrap p (bs "a123b") = Some (bs "123") /\ is_err p (bs "a1234b") = true /\ is_err p (bs "def") = true.
Proof. run. Qed.
(** 1730-1740, 1743-1753 *)
Example test_take_till :
  unwrap (p_map_res (p_take_till0 (N.eqb (chr "c"))) from_utf8) (bs "abcd") = Some (bs "abc") /\
  unwrap (p_map_res (p_take_till1 (N.eqb (chr "c"))) from_utf8) (bs "abcd") = Some (bs "abc").
Proof. run. Qed.
(** 1756-1765 *)
Example test_discard :
  is_ok (p_discard (p_seqN (bs "abc"))) (bs "abc") = true /\ is_err (p_discard (p_seqN (bs "abc"))) (bs "def") = true.
Proof. run. Qed.
(** 1768-1779 *)
Example test_and_then :
  unwrap (p_and (p_elm_ref (chr "a")) (p_elm_ref (chr "b"))) (bs "ab") = Some (chr "a", chr "b").
Proof. run. Qed.
(** 1782-1794 *)
Example test_last_offset :
  unwrap (p_last_offset (p_and (p_elm_ref (chr "a")) (p_elm_ref (chr "b")))) (bs "ab") = Some 1.
Proof. run. Qed.
(** 1797-1810 *)
Example test_or :
  let p := p_or (p_elm_ref (chr "a")) (p_elm_ref (chr "b")) in
  unwrap p (bs "ab") = Some (chr "a") /\ unwrap p (bs "ba") = Some (chr "b").
Proof. run. Qed.
(** 1813-1822, 1825-1836 *)
Example test_skip :
  unwrap (p_skip_left (p_elm_ref (chr "a")) (p_elm_ref (chr "b"))) (bs "ab") = Some (chr "b") /\
  unwrap (p_skip_right (p_elm_ref (chr "a")) (p_elm_ref (chr "b"))) (bs "ab") = Some (chr "a").
Proof. run. Qed.
(** 1839-1863 *)
Example test_example1 :
  let p := p_map (p_and (p_and (p_elm_ref (chr "a")) (p_elm_ref (chr "b")))
                        (p_or (p_elm_ref (chr "c")) (p_elm_ref (chr "d")))) (fun x => [fst (fst x); snd (fst x); snd x]) in
  unwrap p (bs "abc") = Some (bs "abc") /\ unwrap p (bs "abd") = Some (bs "abd").
Proof. run. Qed.
(** 1866-1883 *)
Example test_example2 : is_ok (p_and (p_elm_ref (chr "a")) (p_tag (bs "name"))) (bs "aname") = true.
Proof. run. Qed.
(** 1886-1901, 1904-1919 *)
Example test_filter :
  let p1 := p_skip_right (p_skip_left (p_tag (bs "abc")) (p_many1 (p_map (p_elm_ref 32%N) (fun e => e)))) (p_tag (bs "def")) in
  let long s := 1 <? List.length s in
  is_err (p_filter p1 long) (bs "abc def") = true /\ is_ok (p_filter p1 long) (bs "abc  def") = true /\
  is_ok (p_filter_not p1 long) (bs "abc def") = true /\ is_err (p_filter_not p1 long) (bs "abc  def") = true.
Proof. run. Qed.

(** ** The documentation examples of parser/src/lib.rs *)
(** 16-163 *)
Example doc_basic :
  unwrap p_unit (bs "a") = Some tt /\ unwrap p_empty (bs "a") = Some tt /\ is_err p_end (bs "a") = true /\
  unwrap (p_successful (chr "a")) (bs "x") = Some (chr "a") /\
  unwrap (p_successful_lazy (fun _ => chr "a")) (bs "x") = Some (chr "a") /\
  parse (p_failed (A := unit) Incomplete Committed) (bs "x") = Failure Incomplete Committed /\
  parse (p_failed (A := unit) Incomplete Uncommitted) (bs "x") = Failure Incomplete Uncommitted /\
  parse (p_failed_lazy (A := unit) (fun _ => (Incomplete, Committed))) (bs "x") = Failure Incomplete Committed.
Proof. run. Qed.
(** 258-404 *)
Example doc_elements :
  unwrap p_elm_any_ref (bs "x") = Some (chr "x") /\ unwrap p_elm_any (bs "x") = Some (chr "x") /\
  unwrap (p_elm_ref (chr "x")) (bs "x") = Some (chr "x") /\ unwrap (p_elm (chr "x")) (bs "x") = Some (chr "x") /\
  unwrap (p_elm_pred_ref (N.eqb (chr "x"))) (bs "x") = Some (chr "x") /\
  unwrap (p_elm_pred (N.eqb (chr "x"))) (bs "x") = Some (chr "x").
Proof. run. Qed.
(** 408-625 *)
Example doc_sets :
  unwrap (p_many1 (p_elm_of (bs "xyz"))) (bs "xyz") = Some (bs "xyz") /\
  unwrap (p_many1 (p_elm_in (chr "x") (chr "z"))) (bs "xyz") = Some (bs "xyz") /\
  unwrap (p_many1 (p_elm_from_until (chr "w") (chr "z"))) (bs "wxy") = Some (bs "wxy") /\
  unwrap (p_many1 (p_none_of (bs "abc"))) (bs "xyz") = Some (bs "xyz").
Proof. run. Qed.
(** 627-1011 *)
Example doc_classes :
  unwrap (p_many1 p_elm_space) (bs "   ") = Some (bs "   ") /\
  unwrap (p_many1 p_elm_multi_space) [32; 10; 32]%N = Some [32; 10; 32]%N /\
  unwrap (p_many1 p_elm_alpha) (bs "abcxyz") = Some (bs "abcxyz") /\
  unwrap (p_many1 p_elm_alpha_digit) (bs "abc0123xyz") = Some (bs "abc0123xyz") /\
  unwrap (p_many1 p_elm_digit) (bs "0123456789") = Some (bs "0123456789") /\
  unwrap (p_many1 p_elm_digit_1_9) (bs "123456789") = Some (bs "123456789") /\
  unwrap (p_many1 p_elm_hex_digit) (bs "0123456789ABCDEFabcdef") = Some (bs "0123456789ABCDEFabcdef") /\
  unwrap (p_many1 p_elm_oct_digit) (bs "012345678") = Some (bs "012345678").
Proof. run. Qed.
(** 1015-1116 *)
Example doc_texts :
  unwrap (p_map_res (p_collect (p_seqN (bs "abc"))) from_utf8) (bs "abc") = Some (bs "abc") /\
  unwrap (p_tag (bs "abc")) (bs "abcdef") = Some (bs "abc").
Proof. run. Qed.
(** 1118-1284 *)
Example doc_take :
  let f := range_in_contains (chr "a") (chr "c") in
  unwrap (p_take 3) (bs "abcdef") = Some (bs "abc") /\ unwrap (p_take_while0 f) (bs "abcdef") = Some (bs "abc") /\
  unwrap (p_take_while1 f) (bs "abcdef") = Some (bs "abc") /\
  unwrap (p_take_while_n_m 1 3 f) (bs "abcdef") = Some (bs "abc") /\
  unwrap (p_take_till0 (N.eqb (chr "c"))) (bs "abcdef") = Some (bs "abc") /\
  unwrap (p_take_till1 (N.eqb (chr "c"))) (bs "abcdef") = Some (bs "abc").
Proof. run. Qed.
(** 1288-1376, and tests/surround_static_tes.rs 4-41 *)
Example doc_skip :
  unwrap (p_skip_left (p_skip 3) (p_tag (bs "def"))) (bs "abcdef") = Some (bs "def") /\
  unwrap (p_surround (p_elm (chr "(")) (p_tag (bs "abc")) (p_elm (chr ")"))) (bs "(abc)") = Some (bs "abc") /\
  unwrap (p_lazy (fun _ => p_tag (bs "abc"))) (bs "abc") = Some (bs "abc") /\
  unwrap (p_surround (p_elm_ref (chr "(")) (p_take 3) (p_elm_ref (chr ")"))) (bs "(abc)") = Some (bs "abc").
Proof. run. Qed.
