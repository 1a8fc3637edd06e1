(** The unit tests of toys/src/parsers.rs and the program of toys/src/main.rs, run on the model (tests, not proofs). *)
From Verif Require Import Base Core Comb Toys ToysParse TestsParser.
Set Implicit Arguments.
Local Open Scope string_scope.
Local Open Scope nat_scope.
Local Open Scope list_scope.
Local Ltac run := repeat split; vm_compute; reflexivity.
Definition nl (s : string) : list N := 10%N :: bs s.
(** Interpreter::new().interpret(e): the printed values, if it returns. *)
Definition printed (e : expr) : option (list value) :=
  match interpret true [] 100 e start with Ret _ s => Some (out s) | _ => None end.
(** The class \d; no digits but the ASCII ones occur in the tests. *)
Definition nd : N -> bool := is_ascii_digit.
Definition int (z : Z) : expr := EInt z.

(** parsers.rs 341-354: the block prints 3. *)
Example test_example :
  match unwrap (line nd) (nl "    {" ++ nl "      a = 1;" ++ nl "      b = 2;" ++ nl "      c = a + b;" ++ nl "      println(c);"
                     ++ nl "    }" ++ nl "    ") with
  | Some e => printed e
  | None => None
  end = Some [VInt 3].
Proof. run. Qed.
(** 357-372 *)
Example test_while : unwrap (line nd) (bs "while(1==2){1;}") = Some (EWhile (EBin OEq (int 1) (int 2)) (EBlock [int 1])).
Proof. run. Qed.
(** 375-403 *)
Example test_for :
  unwrap (for_p nd (line nd)) (bs "for(i in 1 to 10) a=1;") =
    Some (EBlock [EAssign (bs "i") (int 1);
                  EWhile (EBin OLt (ESymbol (bs "i")) (int 10))
                    (EBlock [EAssign (bs "a") (int 1);
                             EAssign (bs "i") (EBin OAdd (ESymbol (bs "i")) (int 1))])]).
Proof. run. Qed.
(** 406-423 *)
Example test_if :
  unwrap (if_p nd (line nd)) (bs "if(1==2){1;}") = Some (EIf (EBin OEq (int 1) (int 2)) (EBlock [int 1]) None).
Proof. run. Qed.
(** 426-435 *)
Example test_assignment : unwrap (line nd) (bs "i=1;") = Some (EAssign (bs "i") (int 1)).
Proof. run. Qed.
(** 438-444 *)
Example test_println : match unwrap (line nd) (bs "println(1+2*3);") with Some e => printed e | None => None end = Some [VInt 7].
Proof. run. Qed.
(** 447-499 *)
Example test_calls :
  unwrap (labelled_call (expression nd)) (nl "    abc[n=5]" ++ nl "    ") = Some (ELabelled (bs "abc") [(bs "n", int 5)]) /\
  unwrap (function_call (expression nd)) (nl "    abc();" ++ nl "    ") = Some (ECall (bs "abc") []) /\
  unwrap (function_call (expression nd)) (nl "    abc(1);" ++ nl "    ") = Some (ECall (bs "abc") [int 1]) /\
  unwrap (function_call (expression nd)) (nl "    abc(1,2);" ++ nl "    ") = Some (ECall (bs "abc") [int 1; int 2]).
Proof. run. Qed.
(** 502-563 *)
Example test_primary :
  unwrap bool_literal (bs "true") = Some (EBool true) /\ unwrap bool_literal (bs "false") = Some (EBool false) /\
  unwrap (array_literal (expression nd)) (bs "[]") = Some (EArray []) /\
  unwrap (array_literal (expression nd)) (bs "[1]") = Some (EArray [int 1]) /\
  unwrap (array_literal (expression nd)) (nl "    [1,2]" ++ nl "    ") = Some (EArray [int 1; int 2]) /\
  unwrap (t_integer nd) (nl "    10" ++ nl "    ") = Some (int 10) /\
  unwrap identifier (bs "abc") = Some (ESymbol (bs "abc")).
Proof. run. Qed.
(** 566-637 *)
Example test_operators :
  unwrap (expression nd) (bs "1/2") = Some (EBin ODiv (int 1) (int 2)) /\
  unwrap (expression nd) (bs "2%2") = Some (EBin OMod (int 2) (int 2)) /\
  unwrap (expression nd) (bs "1+2") = Some (EBin OAdd (int 1) (int 2)) /\
  unwrap (expression nd) (bs "1>2") = Some (EBin OGt (int 1) (int 2)) /\
  unwrap (expression nd) (bs "a>2") = Some (EBin OGt (ESymbol (bs "a")) (int 2)).
Proof. run. Qed.

(** main.rs 17-39. *)
Definition main_text : list N :=
  nl "    fn fizz_buzz(n) {" ++ nl "      if ((n % 3 == 0) && (n % 5 == 0)) {" ++ nl "        println(""FizzBuzz"");"
  ++ nl "      } else if (n % 3 == 0) {" ++ nl "        println(""Fizz"");" ++ nl "      } else if (n % 5 == 0) {"
  ++ nl "        println(""Buzz"");" ++ nl "      } else {" ++ nl "        println(n);" ++ nl "      }" ++ nl "    }"
  ++ nl "    fn main() {" ++ nl "      println(""----"");" ++ nl "      for (i in 1 to 100) {" ++ nl "        n = i;"
  ++ nl "        fizz_buzz(i);" ++ nl "      }" ++ nl "      println(""----"");" ++ nl "    }" ++ nl "    ".
Definition fizz_buzz (i : nat) : value :=
  if (i mod 15 =? 0) then VString (bs "FizzBuzz")
  else if (i mod 3 =? 0) then VString (bs "Fizz")
  else if (i mod 5 =? 0) then VString (bs "Buzz") else VInt (Z.of_nat i).
Example test_main :
  match unwrap (program nd) main_text with
  | Some e => match call_main true 400 e with Ret _ s => Some (out s) | _ => None end
  | None => None
  end = Some ([VString (bs "----")] ++ map fizz_buzz (seq 1 99) ++ [VString (bs "----")]).
Proof. run. Qed.
