(** The unit tests of hocon/src and hocon/tests, run on the model (tests, not proofs).  Numbers are kept as their texts. *)
From Verif Require Import Base Core Comb Text Hocon TestsParser.
Set Implicit Arguments.
Local Open Scope string_scope.
Local Open Scope nat_scope.
Local Open Scope list_scope.
Local Ltac run := repeat split; vm_compute; reflexivity.
Definition nl (s : string) : list N := 10%N :: bs s.
Definition Num := list N.
Definition dec (s : list N) : option Num := Some s.
Definition no_env (_ : list N) : option (list N) := None.
Definition no_files (_ : list N) : option (list N) := None.
(** ConfigFactory::new().parse_from_string(text).unwrap(), with the variable TEST_VAR unset or set. *)
Definition test_var (v : list N) (x : list N) : option (list N) :=
  if list_eq_dec N.eq_dec x (bs "TEST_VAR") then Some v else None.
Definition load_with (env : list N -> option (list N)) (text : list N) : rs (option (cv Num)) :=
  parse_from_string dec env no_files 50 text.
Definition lookup (env : list N -> option (list N)) (text path : list N) : rs (option (cv Num)) :=
  rbind (load_with env text) (fun c => match c with Some c => get_value c path | None => RPanic end).
Definition str (s : string) : rs (option (cv Num)) := ROk (Some (CStr (bs s))).

(** model.rs 152-173 *)
Definition simple_text : list N :=
  nl "    foo {" ++ nl "      bar = ""baz""" ++ nl "      test {" ++ nl "        a = ""aaaa""" ++ nl "      }" ++ nl "    }"
  ++ nl "    foo {" ++ nl "      test {" ++ nl "        b = ""aaaa""" ++ nl "        b = ""xxxx""" ++ nl "      }" ++ nl "    }" ++ nl "    ".
Example test_simple :
  lookup no_env simple_text (bs "foo.test.a") = str "aaaa" /\ lookup no_env simple_text (bs "foo.test.b") = str "xxxx".
Proof. run. Qed.
(** 176-208 *)
Definition path_text : list N :=
  nl "        x.y.a=1s" ++ nl "        x.y {" ++ nl "          c=3" ++ nl "          c.d.e = 5" ++ nl "        }"
  ++ nl "        x.y.b=[2.1, 10, 30]" ++ nl "        x.x.x=""a""" ++ nl "        ".
Example path_as_key :
  lookup no_env path_text (bs "x.y.a") = ROk (Some (CDur (bs "1") USeconds)) /\
  lookup no_env path_text (bs "x.y.b") = ROk (Some (CArr [CNum (bs "2.1"); CNum (bs "10"); CNum (bs "30")])) /\
  lookup no_env path_text (bs "x.y.c.d.e") = ROk (Some (CNum (bs "5"))) /\
  lookup no_env path_text (bs "x.x.x") = str "a".
Proof. run. Qed.
(** 211-233 *)
Definition reference_text : list N :=
  nl "    foo {" ++ nl "      xyz = ""aaaa""" ++ nl "      bar = ""baz""" ++ nl "      bar = ${foo.xyz}" ++ nl "      test {"
  ++ nl "        a = ""aaaa""" ++ nl "        a = ${foo.bar} " ++ nl "      }" ++ nl "    }" ++ nl "    foo {" ++ nl "      test {"
  ++ nl "        b = ""bbbb""" ++ nl "      }" ++ nl "    }" ++ nl "    ".
Example test_eval_reference :
  lookup no_env reference_text (bs "foo.test.a") = str "aaaa" /\ lookup no_env reference_text (bs "foo.test.b") = str "bbbb".
Proof. run. Qed.
(** 235-272 *)
Definition env_text : list N :=
  nl "    foo {" ++ nl "      bar = ""baz""," ++ nl "      bar = ""biz""," ++ nl "      test {" ++ nl "        a = ""aaaa"","
  ++ nl "        a = ${TEST_VAR} " ++ nl "      }" ++ nl "    }" ++ nl "    ".
Example test_environment_value :
  lookup (test_var (bs "12345")) env_text (bs "foo.test.a") = str "12345" /\ lookup no_env env_text (bs "foo.test.a") = RPanic.
Proof. run. Qed.
(** 274-311 *)
Definition fallback_text : list N :=
  nl "    foo {" ++ nl "      bar = ""baz""" ++ nl "      bar = ""biz""" ++ nl "      test {" ++ nl "        a = ""aaaa"""
  ++ nl "        a = ${?TEST_VAR} " ++ nl "      }" ++ nl "    }" ++ nl "    ".
Example test_environment_value_fallback :
  lookup (test_var (bs "12345")) fallback_text (bs "foo.test.a") = str "12345" /\
  lookup no_env fallback_text (bs "foo.test.a") = str "aaaa".
Proof. run. Qed.
(** model/config_value.rs 452-465 *)
Example test_push :
  let v := push (push (CBool true : cv Num) (CStr (bs "ABC"))) CNull in
  latest v = CNull /\ prev_latest v = CStr (bs "ABC") /\ to_vec v = [CBool true; CStr (bs "ABC"); CNull].
Proof. run. Qed.
(** tests/config.rs 17-42 with the files of tests/data *)
Definition number (s : string) : rs (option (cv Num)) := ROk (Some (CNum (bs s))).
Example test_config :
  lookup no_env (bs "a=1") (bs "a") = number "1" /\ lookup no_env (bs "b=2") (bs "b") = number "2" /\
  lookup no_env (bs "#" ++ nl "foo = bar") (bs "foo") = str "bar" /\
  load_with no_env (bs "{" ++ nl "    ""1"": 1" ++ nl "}") = ROk (Some (CObj [(bs "1", CNum (bs "1"))])).
Proof. run. Qed.
