(** C88, C89: printing and parsing toys programs, and running them from their text. *)
From Verif Require Import PropsA PropsB PropsF PropsG PropsI PropsJ.
From Verif Require Import Base Core Comb Closure Text Hoare Runs JsonSpec Toys ToysSpec ToysFacts ToysSyntax ToysParse ToysParseSound ToysParseComplete ToysPrint.
From Coq Require Import ZArith Zquot Lia.
Set Implicit Arguments.
Local Open Scope string_scope.
Local Open Scope nat_scope.
Local Open Scope list_scope.

(** ** C88 *)
(** Every layout of the tokens of a program is parsed to the tree of the program. *)
Theorem C88_program_round_trip : forall nd ds s a, ascii_class nd -> Forall tfits ds -> spells (flat_map top_toks ds) s -> ws a ->
  parse (program nd) (a ++ s) = Success (EProgram (map top_tree ds)) (length (a ++ s)).
Proof.
  intros nd ds s a H F S Ha. pose proof (@C83_program_complete nd (map top_tree ds) s a [] H (tops_ok F S) Ha I) as K. now rewrite app_nil_r in K.
Qed.
Print Assumptions C88_program_round_trip.
Theorem C88_lines_round_trip : forall nd l s a, ascii_class nd -> all_fit l -> l <> [] -> spells (flat_map stoks l) s -> ws a ->
  parse (lines nd) (a ++ s) = Success (map tree l) (length (a ++ s)).
Proof.
  intros nd l s a H F Hn S Ha. apply C83_lines_complete; [exact H| |now destruct l|exact Ha]. eapply stms_ok; [exact F| |exact S]. intros t _ Ft u. now apply stoks_ok.
Qed.
Print Assumptions C88_lines_round_trip.
Theorem C88_expression_round_trip : forall nd e s rest, ascii_class nd -> fits 4 e -> spells (toks e) s -> match rest with [] => True | x :: _ => In x (bs ")],;") end ->
  exists n, parse (expression nd) (s ++ rest) = Success e n /\ n <= length s /\ ws (skipn n s).
Proof. intros nd e s rest H F S Hr. apply C83_expression_complete; [exact H| |exact Hr]. eapply toks_ok; [|exact F|exact S]. lia. Qed.
Print Assumptions C88_expression_round_trip.
(** Exactly the trees that fit have a text. *)
Theorem C88_trees : forall e, fits 4 e <-> exists s, lev true 4 e s.
Proof.
  intros e. split; [|intros [s H]; now apply lev_fits in H]. intros H. exists (List.concat (toks e)). eapply toks_ok; [|exact H|]; [lia|].
  induction (toks e) as [|t ts IH]; [apply sp_nil|]. cbn. change (List.concat ts) with ([] ++ List.concat ts). apply sp_cons; [apply ws_nil|exact IH].
Qed.
Print Assumptions C88_trees.
(** So a tree that was parsed can be printed and is parsed again to the same tree. *)
Theorem C88_print_parsed : forall nd e s s', ascii_class nd -> lev true 4 e s -> spells (toks e) s' -> exists n, parse (expression nd) s' = Success e n.
Proof.
  intros nd e s s' H G S. assert (F : fits 4 e) by (apply C88_trees; now exists s). destruct (@C88_expression_round_trip nd e s' [] H F S I) as (n & E & _).
  rewrite app_nil_r in E. now exists n.
Qed.
Print Assumptions C88_print_parsed.

(** Layouts by a list of white spaces. *)
Fixpoint layout (ts : tokens) (l : list (list N)) : list N :=
  match ts with [] => [] | t :: ts => match l with [] => t ++ layout ts [] | w :: l => t ++ w ++ layout ts l end end.
Lemma layout_spells : forall ts l, Forall ws l -> spells ts (layout ts l).
Proof.
  induction ts as [|t ts IH]; intros l H; [apply sp_nil|]. destruct l as [|w l]; cbn [layout].
  - change (layout ts []) with ([] ++ layout ts []). apply sp_cons; [apply ws_nil|now apply IH].
  - inversion H. subst. apply sp_cons; [assumption|now apply IH].
Qed.
Lemma is_word : forall c t, ident_start c = true -> forallb ident_char t = true -> word (c :: t).
Proof.
  intros c t Hc Ht. exists c, t. split; [reflexivity|]. split; [now apply start_iff|]. apply Forall_forall. intros y Hy. rewrite forallb_forall in Ht. now apply ichar_iff, Ht.
Qed.
(** An expression whose parentheses are missing does not fit, and an else belongs to the nearest if. *)
Example C88_example :
  layout (toks (EBin OMul (EParen (EBin OAdd (EInt 1) (EInt 2))) (EInt (-3)))) [bs " "] = bs "( 1+2)*-3" /\ fits 4 (EBin OMul (EParen (EBin OAdd (EInt 1) (EInt 2))) (EInt (-3))) /\
  ~ fits 4 (EBin OMul (EBin OAdd (EInt 1) (EInt 2)) (EInt 3)) /\
  let t := SIfElse (EInt 1) (SIf (EInt 2) (SBlock [])) (SBlock []) in
  layout (stoks t) [] = bs "if(1)if(2){}else{}" /\ ~ sfits t /\
  parse (lines nd0) (bs "if(1)if(2){}else{}") = Success [EIf (EInt 1) (EIf (EInt 2) (EBlock []) (Some (EBlock []))) None] 18.
Proof.
  split; [reflexivity|]. split; [cbn; lia|]. split; [cbn; lia|]. split; [reflexivity|]. split; [|vm_compute; reflexivity]. intros H. cbn in H. destruct H as (_ & (_ & H) & _). discriminate.
Qed.

(** ** C89: from the text to the output *)
(** toys/src/main.rs 39-41. *)
Definition run_text (nd : N -> bool) (checked : bool) (fuel : nat) (s : list N) : result value :=
  match parse (program nd) s with
  | Success e _ => call_main checked fuel e
  | _ => Pan start
  end.
(** The program in toys/src/main.rs 16-37, with a to b for 1 to 100. *)
Definition main_source (a b : Z) : list N :=
  bs "
    fn fizz_buzz(n) {
      if ((n % 3 == 0) && (n % 5 == 0)) {
        println(""FizzBuzz"");
      } else if (n % 3 == 0) {
        println(""Fizz"");
      } else if (n % 5 == 0) {
        println(""Buzz"");
      } else {
        println(n);
      }
    }
    fn main() {
      println(""----"");
      for (i in "
  ++ show_int a ++ bs " to " ++ show_int b ++ bs ") {
        n = i;
        fizz_buzz(i);
      }
      println(""----"");
    }
    ".
Section FizzBuzz.
Let n := bs "n".
Let i := bs "i".
Let fb := bs "fizz_buzz".
Let divides (k : Z) := EBin OEq (EBin OMod (ESymbol n) (EInt k)) (EInt 0).
Let print_ (s : string) := SBlock [SPrintln (EString (bs s))].
Definition fizz_stm : surface :=
  SIfElse (EBin OAnd (EParen (divides 3)) (EParen (divides 5))) (print_ "FizzBuzz")
    (SIfElse (divides 3) (print_ "Fizz") (SIfElse (divides 5) (print_ "Buzz") (SBlock [SPrintln (ESymbol n)]))).
Definition loop_body : surface := SBlock [SAssign n (ESymbol i); SExpr (ECall fb [ESymbol i])].
Definition main_stms (a b : Z) : list surface := [SPrintln (EString (bs "----")); SFor i (EInt a) (EInt b) loop_body; SPrintln (EString (bs "----"))].
Definition main_program (a b : Z) : list top := [TFun fb [n] [fizz_stm]; TFun main_name [] (main_stms a b)].
Let e : list N := [].
Let sp := bs " ".
Let nl (k : nat) := 10%N :: repeat 32%N k.
Definition main_spaces : list (list N) :=
  [sp; e; e; e; sp; nl 6; sp; e; e; sp; sp; sp; sp; e; sp; sp; e; sp; sp; sp; sp; e; e; sp; nl 8; e; e; e; e; nl 6; sp; sp; sp; e; sp; sp; sp; sp; e; sp; nl 8; e; e; e; e; nl 6; sp; sp; sp; e; sp; sp; sp; sp; e; sp; nl 8; e; e; e; e; nl 6; sp; sp; nl 8; e; e; e; e; nl 6; nl 4; nl 4; sp; e; e; sp; nl 6; e; e; e; e; nl 6; sp; e; e; sp; e; sp; e; sp; nl 8; sp; sp; e; nl 8; e; e; e; e; nl 6; nl 6; e; e; e; e; nl 4; nl 4].
Lemma main_layout : forall a b, main_source a b = nl 4 ++ layout (flat_map top_toks (main_program a b)) main_spaces.
Proof. intros a b. lazy -[show_int]. reflexivity. Qed.
Lemma main_fits : forall a b, i64 a -> i64 b -> Forall tfits (main_program a b).
Proof.
  intros a b Ha Hb. assert (Wn : word n /\ word i /\ word fb /\ word main_name) by (repeat split; now apply is_word).
  assert (P : plain_name n /\ plain_name i) by (split; split; intros [t E]; discriminate). unfold i64, i64_min, i64_max in Ha, Hb. destruct Wn as (W1 & W2 & W3 & W4). destruct P as [P1 P2].
  assert (Int : forall j z, (0 <= z <= 5)%Z -> fits j (EInt z)) by (intros j z Hz; cbn -[Z.pow]; lia).
  assert (Sn : forall j, fits j (ESymbol n) /\ fits j (ESymbol i)) by (intros j; split; now split).
  assert (D : forall k, (0 <= k <= 5)%Z -> fits 4 (divides k)).
  { intros k Hk. split; [cbn; lia|]. split; [|apply Int; lia]. split; [cbn; lia|]. split; [apply Sn|now apply Int]. }
  assert (P : forall t, sfits (print_ t)) by (intros t; split; [exact I|]; split; [discriminate|exact I]).
  apply Forall_cons; [|apply Forall_cons; [|apply Forall_nil]].
  - split; [exact W3|]. split; [now repeat constructor|]. split; [|split; [discriminate|exact I]]. unfold fizz_stm. split; [|split; [split; [apply P|reflexivity]|]].
    + split; [cbn; lia|]. split; apply D; lia.
    + split; [apply D; lia|]. split; [split; [apply P|reflexivity]|]. split; [apply D; lia|]. split; [split; [apply P|reflexivity]|]. split; [apply Sn|]. split; [discriminate|exact I].
  - split; [exact W4|]. split; [constructor|]. cbn [main_stms all_fit]. split; [exact I|]. split; [discriminate|]. split; [|split; [discriminate|]; split; [exact I|]; split; [discriminate|exact I]].
    split; [exact W2|]. split; [exact Ha|]. split; [exact Hb|]. split; [split; [exact W1|apply (Sn 4)]|]. split; [discriminate|]. split; [|split; [discriminate|exact I]].
    split; [split; [exact W3|]; split; [apply (Sn 4)|exact I]|]. intros f E. injection E as <-. repeat split; discriminate.
Qed.

(** What the program should print for one number. *)
Definition fizz (z : Z) : value :=
  if ((z mod 3 =? 0) && (z mod 5 =? 0))%Z then VString (bs "FizzBuzz")
  else if (z mod 3 =? 0)%Z then VString (bs "Fizz")
  else if (z mod 5 =? 0)%Z then VString (bs "Buzz")
  else VInt z.
Variable checked : bool.
Variable fns : functions.
Notation ev := (ev checked fns).
Lemma divides_ev : forall s z k, (0 < k)%Z -> lookup (chain s) n (VInt z) -> ev (divides k) s (Some (VBool (z mod k =? 0)%Z)) s.
Proof.
  intros s z k Hk H. apply ev_bin with (a := VInt (Z.rem z k)) (b := VInt 0) (s1 := s); [|apply ev_int|].
  - apply ev_bin with (a := VInt z) (b := VInt k) (s1 := s); [now apply ev_symbol|apply ev_int|]. apply b_mod; lia.
  - apply b_cmp. rewrite Z.eqb_eq. rewrite Z.rem_divide, Z.mod_divide by lia. reflexivity.
Qed.
Lemma fizz_ev : forall s z, lookup (chain s) n (VInt z) -> ev (EBlock [tree fizz_stm]) s (Some (fizz z)) (written s (fizz z)).
Proof.
  intros s z H. apply ev_block1. pose proof (@divides_ev s z 3 ltac:(lia) H) as D3. pose proof (@divides_ev s z 5 ltac:(lia) H) as D5.
  assert (P : forall t, ev (tree (print_ t)) s (Some (VString (bs t))) (written s (VString (bs t)))) by (intros t; apply ev_block1, ev_println, ev_string).
  assert (C : ev (EBin OAnd (EParen (divides 3)) (EParen (divides 5))) s (Some (VBool ((z mod 3 =? 0) && (z mod 5 =? 0))%Z)) s).
  { apply ev_bin with (a := VBool (z mod 3 =? 0)%Z) (b := VBool (z mod 5 =? 0)%Z) (s1 := s); [now apply ev_paren|now apply ev_paren|]. destruct (z mod 3 =? 0)%Z; cbn; constructor. }
  unfold fizz. cbn [tree fizz_stm]. destruct ((z mod 3 =? 0) && (z mod 5 =? 0))%Z.
  - eapply ev_if_t; [exact C|apply P].
  - eapply ev_if_f; [exact C|]. destruct (z mod 3 =? 0)%Z.
    + eapply ev_if_t; [exact D3|apply P].
    + eapply ev_if_f; [exact D3|]. destruct (z mod 5 =? 0)%Z; [eapply ev_if_t; [exact D5|apply P]|]. eapply ev_if_f; [exact D5|]. apply ev_block1, ev_println. now apply ev_symbol.
Qed.
Hypothesis Hfns : hm_get fns fb = Some ([n], EBlock [tree fizz_stm]).
Lemma here_or_not : forall s x, env_next (env s) = [] -> bound_here s x \/ ~ bound s x.
Proof.
  intros s x H. destruct (hm_get (env_bindings (env s)) x) as [v|] eqn:E; [left; now exists v|right]. intros [v L]. unfold chain in L. rewrite H in L. inv L; [congruence|].
  match goal with H : lookup [] _ _ |- _ => inv H end.
Qed.
Lemma body_ev : forall s z, holds i s z -> env_next (env s) = [] ->
  ev (tree loop_body) s (Some (fizz z)) (mk_state (env (store s n (VInt z))) (out s ++ [fizz z])).
Proof.
  intros s z H N. cbn [tree loop_body map]. set (s1 := store s n (VInt z)).
  assert (Hi : hm_get (env_bindings (env s1)) i = Some (VInt z)).
  { unfold s1, store. cbn [env env_bindings]. rewrite hm_get_set. destruct (list_eq_dec N.eq_dec i n) as [E|_]; [discriminate|exact H]. }
  apply ev_block with (v := VInt z) (s1 := s1); [discriminate| |].
  - apply ev_assign; [apply ev_symbol; now apply lk_here|]. destruct (here_or_not s n N); tauto.
  - apply ev_block1. change (mk_state (env s1) (out s ++ [fizz z])) with (mk_state (env s1) (out (written (fresh s1) (fizz z)))).
    eapply ev_call; [exact Hfns| | |apply fizz_ev].
    + apply evs_cons with (v := VInt z) (s1 := s1); [apply ev_symbol; now apply lk_here|apply evs_nil].
    + cbn. lia.
    + apply lk_next; [reflexivity|]. apply lk_here. unfold s1, store. cbn [env env_bindings]. rewrite hm_get_set. destruct (list_eq_dec N.eq_dec n n); congruence.
Qed.
Lemma loop_iterates : forall k a b s, Z.to_nat (b - a) = k -> holds i s a -> env_next (env s) = [] ->
  exists s', iterates checked fns i (tree loop_body) a b s s' /\ out s' = out s ++ map fizz (PropsG.range a b) /\ env_next (env s') = [].
Proof.
  induction k as [|k IH]; intros a b s Hk H N.
  - exists s. split; [apply it_done; lia|]. split; [|exact N]. unfold PropsG.range. rewrite Hk. now rewrite app_nil_r.
  - pose proof (body_ev H N) as B. set (s1 := mk_state (env (store s n (VInt a))) (out s ++ [fizz a])) in *.
    destruct (IH (a + 1)%Z b (store s1 i (VInt (a + 1)))) as (s' & I1 & O & N'); [lia|apply holds_store|exact N|].
    exists s'. split; [apply it_step with (v := fizz a) (s1 := s1); [lia|now apply runs_ev|exact I1]|]. split; [|exact N'].
    rewrite O. cbn [out store s1]. rewrite <- app_assoc. f_equal. unfold PropsG.range. rewrite Hk. replace (Z.to_nat (b - (a + 1))) with k by lia.
    cbn [seq map app]. f_equal; [now rewrite Z.add_0_r|]. rewrite <- seq_shift, !map_map. apply map_ext. intros j. f_equal. lia.
Qed.
Lemma main_ev : forall a b, i64 a -> i64 b -> exists s', ev (EBlock (map tree (main_stms a b))) start (Some (VString (bs "----"))) s' /\
  out s' = VString (bs "----") :: map fizz (PropsG.range a b) ++ [VString (bs "----")].
Proof.
  intros a b Ha Hb. set (s0 := written start (VString (bs "----"))).
  destruct (@loop_iterates _ a b (store s0 i (VInt a)) eq_refl) as (s1 & I1 & O & N); [apply holds_store|reflexivity|].
  assert (L : runs checked fns (for_expr i (EInt a) (EInt b) (tree loop_body)) s0 (Some (VBool true)) s1).
  { apply C65_for_loop; [intros [K|[]]; discriminate|exact Ha|exact Hb|now apply here_or_not|]. now split. }
  apply runs_ev in L.
  exists (written s1 (VString (bs "----"))). split.
  - cbn [main_stms map tree]. eapply ev_block; [discriminate|apply ev_println, ev_string|]. eapply ev_block; [discriminate|exact L|]. apply ev_block1, ev_println, ev_string.
  - cbn [out written]. rewrite O. reflexivity.
Qed.
End FizzBuzz.
(** The program of main.rs, for any bounds: it is accepted and prints the numbers from a to b - 1 as it should. *)
Theorem C89_fizz_buzz : forall nd checked a b, ascii_class nd -> i64 a -> i64 b ->
  exists n s', (forall fuel, n <= fuel -> run_text nd checked fuel (main_source a b) = Ret (VString (bs "----")) s') /\
  out s' = VString (bs "----") :: map fizz (PropsG.range a b) ++ [VString (bs "----")].
Proof.
  intros nd checked a b H Ha Hb. assert (W : forall k, ws (10%N :: repeat 32%N k)).
  { intros k. constructor; [cbn; lia|]. induction k; constructor; [cbn; lia|assumption]. }
  assert (E : parse (program nd) (main_source a b) = Success (EProgram (map top_tree (main_program a b))) (length (main_source a b))).
  { rewrite main_layout. apply C88_program_round_trip; [exact H|now apply main_fits| |apply (W 4)]. apply layout_spells. unfold main_spaces.
    repeat (apply Forall_cons; [first [apply ws_nil|apply (W _)|repeat constructor; cbn; lia]|]). apply Forall_nil. }
  set (fns := hm_set (hm_set [] (bs "fizz_buzz") ([bs "n"], EBlock [tree fizz_stm])) main_name ([], EBlock (map tree (main_stms a b)))).
  destruct (@main_ev checked fns eq_refl a b Ha Hb) as (s' & V & O). apply (proj1 (interpret_complete checked fns)) in V. destruct V as [k V]. exists k, s'. split; [|exact O].
  intros fuel Hf. unfold run_text. rewrite E. specialize (V fuel Hf). cbn [answer] in V. rewrite <- V. reflexivity.
Qed.
Print Assumptions C89_fizz_buzz.
(** Multiples of 3 and 5, and the upper bound is not included. *)
Example C89_example : exists s', run_text nd0 true 1000 (main_source 10 16) = Ret (VString (bs "----")) s' /\
  out s' = [VString (bs "----"); VString (bs "Buzz"); VInt 11; VString (bs "Fizz"); VInt 13; VInt 14; VString (bs "FizzBuzz"); VString (bs "----")].
Proof. eexists. split; [vm_compute; reflexivity|reflexivity]. Qed.

(** The value of an arithmetic expression over the integers, if all intermediate results are in the range of i64; division
    truncates towards zero. *)
Inductive exact_value : expr -> Z -> Prop :=
| xv_int : forall z, i64 z -> exact_value (EInt z) z
| xv_paren : forall e z, exact_value e z -> exact_value (EParen e) z
| xv_add : forall l r x y, exact_value l x -> exact_value r y -> i64 (x + y) -> exact_value (EBin OAdd l r) (x + y)
| xv_sub : forall l r x y, exact_value l x -> exact_value r y -> i64 (x - y) -> exact_value (EBin OSub l r) (x - y)
| xv_mul : forall l r x y, exact_value l x -> exact_value r y -> i64 (x * y) -> exact_value (EBin OMul l r) (x * y)
| xv_div : forall l r x y q m, exact_value l x -> exact_value r y -> i64 q -> (x = y * q + m)%Z -> (Z.abs m < Z.abs y)%Z -> (0 <= m * x)%Z -> exact_value (EBin ODiv l r) q
| xv_mod : forall l r x y q m, exact_value l x -> exact_value r y -> i64 q -> (x = y * q + m)%Z -> (Z.abs m < Z.abs y)%Z -> (0 <= m * x)%Z -> exact_value (EBin OMod l r) m.
Lemma exact_ev : forall checked fns e z s, exact_value e z -> ev checked fns e s (Some (VInt z)) s.
Proof.
  assert (Q : forall x y q m, (x = y * q + m)%Z -> (Z.abs m < Z.abs y)%Z -> (0 <= m * x)%Z -> q = Z.quot x y /\ m = Z.rem x y).
  { intros x y q m E A B. apply Zquot_mod_unique_full; [|exact E]. apply Remainder_equiv. now split. }
  assert (O : forall x y q m, i64 q -> (x = y * q + m)%Z -> (Z.abs m < Z.abs y)%Z -> ~ (x = i64_min /\ y = (-1)%Z)).
  { intros x y q m Hq E A [-> ->]. unfold i64, i64_min, i64_max in *. assert (m = 0)%Z by lia. lia. }
  intros checked fns e z s H. induction H; try (eapply ev_bin; [eassumption|eassumption|]).
  - apply ev_int.
  - now apply ev_paren.
  - apply b_add. split; [assumption|now left].
  - apply b_sub. split; [assumption|now left].
  - apply b_mul. split; [assumption|now left].
  - destruct (Q _ _ _ _ H2 H3 H4) as [-> _]. apply b_div; [lia|eapply O; eassumption].
  - destruct (Q _ _ _ _ H2 H3 H4) as [_ ->]. apply b_mod; [lia|eapply O; eassumption].
Qed.
(** A program that prints an expression prints its value, however it is laid out. *)
Theorem C89_arithmetic : forall nd checked e z s a, ascii_class nd -> fits 4 e -> exact_value e z ->
  spells (top_toks (TFun main_name [] [SPrintln e])) s -> ws a ->
  exists n s', out s' = [VInt z] /\ forall fuel, n <= fuel -> run_text nd checked fuel (a ++ s) = Ret (VInt z) s'.
Proof.
  intros nd checked e z s a H F V S Ha. assert (Wm : word main_name) by now apply is_word.
  assert (E : parse (program nd) (a ++ s) = Success (EProgram [EFun main_name [] (EBlock [EPrintln e])]) (length (a ++ s))).
  { apply (@C88_program_round_trip nd [TFun main_name [] [SPrintln e]] s a H); [|cbn [flat_map]; now rewrite app_nil_r|exact Ha].
    constructor; [|constructor]. split; [exact Wm|]. split; [constructor|]. split; [exact F|]. split; [discriminate|exact I]. }
  set (fns := hm_set [] main_name ([], EBlock [EPrintln e]) : functions). pose proof (@exact_ev checked fns e z start V) as K.
  assert (K2 : ev checked fns (EBlock [EPrintln e]) start (Some (VInt z)) (written start (VInt z))) by now apply ev_block1, ev_println.
  apply (proj1 (interpret_complete checked fns)) in K2. destruct K2 as [k K2]. exists k, (written start (VInt z)). split; [reflexivity|].
  intros fuel Hf. unfold run_text. rewrite E. specialize (K2 fuel Hf). cbn [answer] in K2. rewrite <- K2. reflexivity.
Qed.
Print Assumptions C89_arithmetic.
Example C89_arithmetic_example : exists s', run_text nd0 true 50 (bs "fn main ( ) { println ( (1 + 2) * 3 - 17 % 5 / 2 ) ; }") = Ret (VInt 8) s' /\ out s' = [VInt 8].
Proof. eexists. split; [vm_compute; reflexivity|reflexivity]. Qed.
