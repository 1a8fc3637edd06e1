(** C124-C126: layout and enumerations of hocon, and how loading ends. *)
From Coq Require Import Relations.
From Verif Require Import PropsH PropsO.
From Verif Require Import Base Core Comb Closure Shift Runs Reads Text Json JsonFacts Hocon HoconFacts HoconParse HoconLookup HoconResolve HoconRefs HoconSpec HoconText HoconSound HoconComplete HoconConf HoconBuilt HoconStop.
Set Implicit Arguments.
Local Open Scope string_scope.
Local Open Scope nat_scope.
Local Open Scope list_scope.

(** ** C124: layout is not part of the configuration *)
(** Layout before any text that does not itself begin with layout: the text is read as without it. *)
Lemma erase_success : forall A (o : outcome N A) v n, erase o = ShSuccess v n <-> o = Success v n.
Proof. intros A [w m|e c| |] v n; cbn; split; intros H; try discriminate; congruence. Qed.
Theorem C124_leading_layout : forall D (dec : list N -> option D) b t vs, block b -> solid t ->
  ((exists n, hocon_p dec t 0 = Success vs n) <-> exists n, hocon_p dec (b ++ t) 0 = Success vs n).
Proof.
  intros D dec b t vs Hb Ht. set (f := S (length (b ++ t))).
  rewrite <- (@hocon_fuel_enough D dec t 0 f) by (unfold f; rewrite app_length; lia).
  rewrite <- (@hocon_fuel_enough D dec (b ++ t) 0 f) by (unfold f; lia).
  destruct (b_fuel dec f) as [B1 B2]. pose proof (b_config B1 B2) as Bc. unfold hocon_fuel.
  set (q := config_step (value_fuel dec f) (property_fuel dec f)) in *.
  assert (E : forall inp k vs, space_or_comment inp 0 = Success tt k ->
    ((exists n, p_skip_right (p_skip_left space_or_comment q) p_end inp 0 = Success vs n) <-> exists n, p_skip_right q p_end inp (k + 0) = Success vs n)).
  { intros inp k ws Es. unfold p_skip_right, p_skip_left. rewrite Es, Nat.add_0_r, Nat.add_0_l.
    destruct (q inp k) as [w m|e c| |]; [|split; intros (n & H); discriminate..]. rewrite Nat.add_0_l.
    destruct (p_end inp (k + m)) as [u j|e c| |]; split; intros (n & H); cbn in H; try discriminate; injection H as -> <-; eauto. }
  pose proof (@skips_nil t Ht []) as S1. cbn in S1. pose proof (@block_skips b t Hb Ht []) as S2. cbn [app length] in S2.
  rewrite (E t 0 vs S1), (E (b ++ t) (length b) vs S2).
  assert (Sh : shiftable (p_skip_right q p_end)) by (eapply built_shiftable; [|apply B_skip_right; [exact Bc|apply B_end]]; intros A p Hp; destruct Hp).
  specialize (Sh (length b) (b ++ t) 0). rewrite app_length in Sh. specialize (Sh ltac:(lia)). rewrite skipn_app, skipn_all, Nat.sub_diag in Sh. cbn [skipn app] in Sh.
  split; intros (n & H); exists n.
  - apply erase_success. rewrite Sh. apply erase_success. exact H.
  - apply erase_success. cbn [Nat.add]. rewrite <- Sh. apply erase_success. exact H.
Qed.
Theorem C124_leading_loads : forall D (dec : list N -> option D) env files b t c, block b -> solid t ->
  ((exists fuel, parse_from_string dec env files fuel t = ROk (Some c)) <-> exists fuel, parse_from_string dec env files fuel (b ++ t) = ROk (Some c)).
Proof.
  intros D dec env files b t c Hb Ht. pose proof (fun vs => @C124_leading_layout D dec b t vs Hb Ht) as L. unfold parse_from_string, parse_from_string_with.
  split; intros (fuel & E); exists fuel.
  - destruct (hocon_p dec t 0) as [vs n|e cm| |] eqn:Ep; try discriminate; [|destruct (error_input e); discriminate].
    destruct (proj1 (L vs)) as [m Em]; [eauto|]. now rewrite Em.
  - destruct (hocon_p dec (b ++ t) 0) as [vs n|e cm| |] eqn:Ep; try discriminate; [|destruct (error_input e); discriminate].
    destruct (proj2 (L vs)) as [m Em]; [eauto|]. now rewrite Em.
Qed.
Definition lead : list N := bs " " ++ nl ++ bs "# first" ++ nl ++ bs "// second" ++ nl.
Example C124_leading_case : block lead /\ solid (bs "a { b = [true] }") /\ exists vs n, hocon_p xdec (bs "a { b = [true] }") 0 = Success vs n.
Proof.
  split; [|split; [apply solid_hd; intros H; cbn in H; intuition discriminate|eexists _, _; vm_compute; reflexivity]].
  exists (bs " " ++ nl), [bs "# first" ++ nl; bs "// second" ++ nl]. split; [reflexivity|]. split; [repeat constructor; cbn; tauto|].
  constructor; [|constructor; [|constructor]].
  - exists (bs "#"), (bs " first"), 10%N. repeat split; [auto|repeat (constructor; [intros [H|H]; discriminate|]); constructor|now left].
  - exists (bs "//"), (bs " second"), 10%N. repeat split; [auto|repeat (constructor; [intros [H|H]; discriminate|]); constructor|now left].
Qed.
(** Between the tokens it is not so: after a comment line an indented line is not skipped.  A second comment line, indented, becomes an element
    of an array, part of a string, or makes the document unreadable; so does an indented line after comments at the start. *)
Theorem C124_layout_refuted :
  load (bs "[true, # c" ++ nl ++ bs "]") = ROk (Some (CArr [CBool true])) /\
  load (bs "[true, # c" ++ nl ++ bs "  # d" ++ nl ++ bs "  ]") = ROk (Some (CArr [CBool true; CStr (bs "  ")])) /\
  load (bs "x = abc" ++ nl ++ bs "a = # c" ++ nl ++ bs " # d" ++ nl ++ bs "${x}") = ROk (Some (CObj [(bs "x", CStr (bs "abc")); (bs "a", CStr (bs "abc"))])) /\
  load (bs "x = abc" ++ nl ++ bs "a = # c" ++ nl ++ bs " # d" ++ nl ++ nl ++ bs "${x}") = ROk (Some (CObj [(bs "x", CStr (bs "abc")); (bs "a", CStr (bs " # dabc"))])) /\
  load (bs "a {" ++ nl ++ bs "  # c" ++ nl ++ bs "  b = true" ++ nl ++ bs "}") = ROk (Some (CObj [(bs "a", CObj [(bs "b", CBool true)])])) /\
  load (bs "a {" ++ nl ++ bs "  # c" ++ nl ++ bs "  # d" ++ nl ++ bs "  b = true" ++ nl ++ bs "}") = ROk None /\
  load (bs "# c" ++ nl ++ bs "b = true") = ROk (Some (CObj [(bs "b", CBool true)])) /\
  load (bs "# c" ++ nl ++ nl ++ bs "# d" ++ nl ++ bs "  b = true") = ROk None.
Proof. repeat split; vm_compute; reflexivity. Qed.
Print Assumptions C124_leading_layout.
Print Assumptions C124_leading_loads.
Print Assumptions C124_layout_refuted.

(** ** C125: enumerations *)
(** [calm] (HoconConf.v): no comment line is directly followed by a space or a tab.  Such a text is never read as an enumeration, anywhere. *)
Lemma conf_inside : forall D (x v : cv D), inside x v -> conf v -> conf x.
Proof.
  intros D x v H. induction H; intros C; try exact C; inv C; auto.
  - apply IHinside. match goal with K : Forall _ l |- _ => now apply (proj1 (Forall_forall _ _) K) end.
  - apply IHinside. match goal with K : Forall _ m |- _ => now apply (proj1 (Forall_forall _ _) K) in H end.
Qed.
Theorem C125_no_enumeration : forall D (dec : list N -> option D) t vs n, hocon_p dec t 0 = Success vs n ->
  ~ (exists u c b r, t = u ++ c ++ b :: r /\ comment_line c /\ (b = 32%N \/ b = 9%N)) ->
  forall v o l, In v vs -> ~ inside (CEnum o l) v.
Proof.
  intros D dec t vs n E C v o l Hv Hi. destruct (@calm_conf D dec t vs n C E) as [H|[_ H]]; apply (proj1 (Forall_forall _ _) H) in Hv.
  - apply (conf_inside Hi) in Hv. inv Hv.
  - destruct Hv as (m & f & ->). inv Hi.
Qed.
(** So strings and references are not concatenated: a reference next to a string is an error, a reference after unquoted text is text. *)
Definition q34 (s : list N) : list N := [34%N] ++ s ++ [34%N].
Theorem C125_concatenation_refuted :
  load (bs "x = abc" ++ nl ++ bs "a = ${x}") = ROk (Some (CObj [(bs "x", CStr (bs "abc")); (bs "a", CStr (bs "abc"))])) /\
  load (bs "x = abc" ++ nl ++ bs "a = ${x}" ++ q34 (bs "d")) = RPanic /\
  load (bs "x = abc" ++ nl ++ bs "a = " ++ q34 (bs "d") ++ bs "${x}") = RPanic /\
  load (bs "x = abc" ++ nl ++ bs "a = d${x}") = ROk (Some (CObj [(bs "x", CStr (bs "abc")); (bs "a", CStr (bs "d${x}"))])).
Proof. repeat split; vm_compute; reflexivity. Qed.
Example C125_case : exists vs n, hocon_p xdec (bs "# c" ++ nl ++ bs "x = abc" ++ nl ++ bs "a = ${x} # d" ++ nl) 0 = Success vs n /\
  exists vs n v, hocon_p xdec (bs "[# c" ++ nl ++ bs " # d" ++ nl ++ bs " ]") 0 = Success vs n /\ In v vs /\ inside (CEnum None [CStr (bs " ")]) v.
Proof.
  eexists _, _. split; [vm_compute; reflexivity|]. eexists _, _, _. split; [vm_compute; reflexivity|]. split; [now left|].
  eapply in_arr; [now left|]. apply in_self.
Qed.
(** A check that suffices: no blank directly after a line end. *)
Fixpoint blank_after (l : list N) : bool :=
  match l with
  | x :: ((y :: _) as t) => (((x =? 10) || (x =? 13)) && ((y =? 32) || (y =? 9)))%N || blank_after t
  | _ => false
  end%bool.
Lemma blank_after_calm : forall l, blank_after l = false -> calm l.
Proof.
  intros l H (u & c & b & r & -> & (h & t & x & -> & Hh & Ht & Hx) & Hb). rewrite <- !app_assoc in H. rewrite !app_assoc in H.
  set (w := (u ++ h) ++ t) in H. clearbody w. rewrite <- app_assoc in H. cbn [app] in H. induction w as [|y w IH].
  - cbn in H. apply Bool.orb_false_iff in H. destruct H as [H _]. destruct Hx as [-> | ->], Hb as [-> | ->]; discriminate.
  - apply IH. destruct w as [|z w]; cbn [app] in H; cbn [blank_after] in H; apply Bool.orb_false_iff in H; exact (proj2 H).
Qed.
Example C125_calm_case : calm (bs "# c" ++ nl ++ bs "x = abc" ++ nl ++ bs "a = ${x} # d" ++ nl).
Proof. apply blank_after_calm. reflexivity. Qed.
Print Assumptions C125_no_enumeration.
Print Assumptions C125_concatenation_refuted.

(** ** C126: how loading ends *)
(** The stack only decides whether there is a result, not which: another result than exhaustion is the result for every larger stack. *)
Theorem C126_stack : forall D (dec : list N -> option D) env files n m text, n <= m -> parse_from_string dec env files n text <> RDiverge ->
  parse_from_string dec env files m text = parse_from_string dec env files n text.
Proof. intros D dec env files n m text Hm H. exact (@load_below D dec env files n m text Hm H). Qed.
(** No [include] in the text. *)
Definition include_free (text : list N) : Prop := ~ exists u w, text = u ++ bs "include " ++ w.
Lemma blocks_not_incl : forall D (dec : list N -> option D) t vs, s_blocks dec t vs -> Forall (@is_incl D) vs -> vs = [].
Proof. intros D dec t vs H F. destruct H as [|s t v vs Hb Hs]; [reflexivity|]. inv F. destruct H1 as (m & f & ->). inv Hb. Qed.
Lemma free_conf : forall D (dec : list N -> option D) text vs n, calm text -> include_free text -> hocon_p dec text 0 = Success vs n -> Forall (@conf D) vs.
Proof.
  intros D dec text vs n C F E. destruct (@calm_conf D dec text vs n C E) as [H|[Hne H]]; [exact H|].
  destruct (@hocon_sound D dec text vs n E) as [_ Hd]. destruct Hd as [a t ps m Ha Hr Hn Hj|a t vs Ha Hi Hn|a t vs Ha Hb].
  - inv H. destruct H2 as (x & y & E'). discriminate.
  - destruct Hi as [|m p t vs Hm Hp Hi]; [congruence|]. destruct F. exists a. eexists. reflexivity.
  - now rewrite (blocks_not_incl Hb H).
Qed.
(** Every calm text without includes that is read, and is not empty, has one configuration whose references are about to be resolved; and it has
    the form C68 is about. *)
Theorem C126_before : forall D (dec : list N -> option D) env files text vs n, calm text -> include_free text -> hocon_p dec text 0 = Success vs n -> vs <> [] ->
  exists v, before dec env files text v /\ conf v.
Proof.
  intros D dec env files text vs n C F E Hne. destruct (@conf_stage0 D dec env files vs Hne (@free_conf D dec text vs n C F E)) as (k & x & Hx & Ex).
  exists x. split; [|exact Hx]. exists vs, n, k. split; [exact E|]. now apply Ex.
Qed.
Lemma before_unique : forall D (dec : list N -> option D) env files text v w, before dec env files text v -> before dec env files text w -> v = w.
Proof.
  intros D dec env files text v w (vs & n & f & E & Ev) (ws & m & g & E' & Ew). rewrite E in E'. injection E' as <- <-.
  pose proof (@stage0_mono D dec env files f (f + g) vs v ltac:(lia) Ev) as A. pose proof (@stage0_mono D dec env files g (f + g) vs w ltac:(lia) Ew) as B. congruence.
Qed.
Lemma before_conf : forall D (dec : list N -> option D) env files text v, calm text -> include_free text -> before dec env files text v -> conf v.
Proof.
  intros D dec env files text v C F Hb. destruct Hb as (vs & n & f & E & Ev) eqn:Q. assert (Hne : vs <> []) by (intros ->; discriminate).
  destruct (@C126_before D dec env files text vs n C F E Hne) as (w & Hw & Cw). now rewrite (@before_unique D dec env files text v w Hb Hw).
Qed.
(** It loads if and only if every reference that is needed is found or falls back and none needs itself. *)
Theorem C126_loads_iff : forall D (dec : list N -> option D) env files text v, calm text -> include_free text -> before dec env files text v ->
  ((exists fuel c, parse_from_string dec env files fuel text = ROk (Some c)) <->
   forall r, ref_in r v -> Acc (needs env v) r /\ forall r', clos_refl_trans (rf D) (needs env v) r' r -> defined env v r').
Proof. intros D dec env files text v C F Hb. apply C68_returns_iff with (files := files) (dec := dec) (text := text); [exact Hb|exact (@before_conf D dec env files text v C F Hb)]. Qed.
(** If no reference needs itself, then with enough stack it ends; and it ends in a panic exactly if a needed reference is neither found nor
    falls back. *)
Theorem C126_ends : forall D (dec : list N -> option D) env files text v, calm text -> include_free text -> before dec env files text v ->
  (forall r, ref_in r v -> Acc (needs env v) r) ->
  exists n, forall fuel, n <= fuel -> parse_from_string dec env files fuel text <> RDiverge.
Proof.
  intros D dec env files text v C F Hb Ha. pose proof (@before_conf D dec env files text v C F Hb) as Cv. destruct (@acyclic_stops D dec env files v v Cv Cv Ha) as [m Hm].
  destruct Hb as (vs & n & f & E & Ev). exists (f + m). intros fuel Hf. unfold parse_from_string, parse_from_string_with. rewrite E.
  rewrite (@stage0_mono D dec env files f fuel vs v ltac:(lia) Ev). cbn [rbind]. unfold resolve_stage1.
  rewrite (@resolve_below D dec env files m fuel v (Some v) ltac:(lia) Hm). destruct (resolve dec env files m v (Some v)); cbn; congruence.
Qed.
Theorem C126_panics_iff : forall D (dec : list N -> option D) env files text v, calm text -> include_free text -> before dec env files text v ->
  (forall r, ref_in r v -> Acc (needs env v) r) ->
  ((exists fuel, parse_from_string dec env files fuel text = RPanic) <->
   ~ forall r r', ref_in r v -> clos_refl_trans (rf D) (needs env v) r' r -> defined env v r').
Proof.
  intros D dec env files text v C F Hb Ha. split.
  - intros [f E] H. destruct (proj2 (@C126_loads_iff D dec env files text v C F Hb)) as (g & c & Eg); [intros r Hr; split; [now apply Ha|intros r'; now apply H]|].
    pose proof (@C126_stack D dec env files f (f + g) text ltac:(lia) ltac:(rewrite E; discriminate)) as A.
    pose proof (@C126_stack D dec env files g (f + g) text ltac:(lia) ltac:(rewrite Eg; discriminate)) as B. congruence.
  - intros H. destruct (@C126_ends D dec env files text v C F Hb Ha) as [n Hn]. exists n. specialize (Hn n (le_n n)). destruct (parse_from_string dec env files n text) as [[c|]| |] eqn:E; [|..|reflexivity|congruence].
    + destruct H. intros r r' Hr Hp. destruct (proj1 (@C126_loads_iff D dec env files text v C F Hb) (ex_intro _ n (ex_intro _ c E)) r Hr) as [_ Hd]. now apply Hd.
    + exfalso. destruct Hb as (vs & k & f & Er & Ev). unfold parse_from_string, parse_from_string_with in E. rewrite Er in E.
      apply rbind_ok in E. destruct E as (a & _ & E). apply rbind_ok in E. destruct E as (b & _ & E). discriminate.
Qed.
(** A text that is not read, or is read as nothing, has the same result with every stack. *)
Theorem C126_not_read : forall D (dec : list N -> option D) env files text, (forall vs n, hocon_p dec text 0 = Success vs n -> vs = []) ->
  forall n, parse_from_string dec env files n text = ROk None \/ parse_from_string dec env files n text = RPanic.
Proof.
  intros D dec env files text H n. unfold parse_from_string, parse_from_string_with. destruct (hocon_p dec text 0) as [vs k|e cm| |] eqn:E.
  - rewrite (H vs k eq_refl). now right.
  - destruct (error_input e); [now left|now right].
  - now right.
  - exfalso. destruct (C67_parser_returns dec text) as [H1 _]. now apply H1.
Qed.
Fixpoint occurs (w l : list N) : bool :=
  if list_eq_dec N.eq_dec (firstn (length w) l) w then true else match l with [] => false | _ :: t => occurs w t end.
Lemma occurs_free : forall l, occurs (bs "include ") l = false -> include_free l.
Proof.
  intros l H (u & w & ->). induction u as [|x u IH].
  - cbn [app] in H. destruct w; cbn in H; discriminate.
  - apply IH. cbn [app] in H. cbn [occurs] in H. destruct (list_eq_dec _ _ _) as [e|e]; [discriminate|exact H].
Qed.
Definition lost : list N := bs "a = ${b}" ++ nl ++ bs "b = ${c.d}" ++ nl ++ bs "c { e = true }".
Definition lst : cv (list N) := CObj [(bs "a", CRef None (bs "b") false); (bs "b", CRef None (bs "c.d") false); (bs "c", CObj [(bs "e", CBool true)])].
Example C126_case : calm three_refs /\ include_free three_refs /\ before xdec nothing nothing three_refs thr /\
  calm two_cycle /\ include_free two_cycle /\ before xdec nothing nothing two_cycle cyc /\
  calm lost /\ include_free lost /\ before xdec nothing nothing lost lst /\ parse_from_string xdec nothing nothing 9 lost = RPanic.
Proof.
  repeat match goal with |- _ /\ _ => split end; try (apply blank_after_calm; reflexivity); try (apply occurs_free; reflexivity);
    try (eexists _, _, 3; split; vm_compute; reflexivity). vm_compute. reflexivity.
Qed.
(** In [lost] no reference needs itself, and [c.d] is needed but not defined. *)
Example C126_lost_case : (forall r, ref_in r lst -> Acc (needs nothing lst) r) /\
  exists r r', ref_in r lst /\ clos_refl_trans _ (needs nothing lst) r' r /\ ~ defined nothing lst r'.
Proof.
  assert (E1 : get_value lst (bs "c.d") = ROk None) by (vm_compute; reflexivity).
  assert (E2 : get_value lst (bs "b") = ROk (Some (CRef None (bs "c.d") false))) by (vm_compute; reflexivity).
  assert (N1 : forall c, ~ target nothing lst (bs "c.d", false, None) c) by (intros c [H|(_ & x & H & _)]; [cbn [fst] in H; congruence|discriminate]).
  assert (A1 : Acc (needs nothing lst) (bs "c.d", false, None)) by (constructor; intros y (c & T & _); now apply N1 in T).
  assert (A2 : Acc (needs nothing lst) (bs "b", false, None)).
  { constructor. intros y (c & T & Hy). assert (c = CRef None (bs "c.d") false) as -> by (destruct T as [H|(_ & x & H & _)]; [cbn [fst] in H; congruence|discriminate]).
    inversion Hy as [o p m Ey| | | |]. subst. exact A1. }
  split.
  - intros r H. inversion H as [| |m k v Hi Hr| |]. subst. cbn in Hi. destruct Hi as [Hi|[Hi|[Hi|[]]]]; injection Hi as <- <-.
    + inversion Hr as [o p m Ey| | | |]. subst. exact A2.
    + inversion Hr as [o p m Ey| | | |]. subst. exact A1.
    + inversion Hr as [| |m k v Hi Hr'| |]. subst. cbn in Hi. destruct Hi as [Hi|[]]. injection Hi as <- <-. inversion Hr'.
  - exists (bs "b", false, None), (bs "c.d", false, None). split; [eapply ri_obj; [left; reflexivity|now apply ri_self]|]. split.
    + apply rt_step. eexists. split; [left; exact E2|]. now apply ri_self.
    + intros [[c T]|(_ & _ & H & _)]; [now apply N1 in T|discriminate].
Qed.
Print Assumptions C126_stack.
Print Assumptions C126_before.
Print Assumptions C126_loads_iff.
Print Assumptions C126_ends.
Print Assumptions C126_panics_iff.
Print Assumptions C126_not_read.
