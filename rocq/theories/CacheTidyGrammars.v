(** No cache of the cron, toys and benchmark parsers finds an answer within one parse. *)
From Verif Require Import Base Core Comb Closure ToysSyntax ToysParseSound ToysApart Text Json Calc Toys ToysParse Bench Cron CacheSim CacheGrammars PropsX CacheOnce CacheTidy.
Set Implicit Arguments.
Local Open Scope string_scope.
Local Open Scope nat_scope.
Local Open Scope list_scope.

(** The rules for the sequences of the grammars. *)
Section Rules.
Variable a : nat -> nat.
Variable inp : list N.
Notation Tidy := (Tidy a inp).
Notation Free := (Free a inp).
Lemma tidy_prim : forall P A (p : parser N A), Tidy P (s_prim p) p.
Proof. intros P A p. apply tidy_free, free_prim. Qed.
Lemma tidy_ext : forall P A (g : sobj A) p q, (forall off, p inp off = q inp off) -> Tidy P g p -> Tidy P g q.
Proof. intros P A g p q E (B & H0 & H1 & H). exists B. split; [exact H0|]. split; [exact H1|]. intros off b t s. rewrite <- E. now apply H. Qed.
Lemma n_and : forall P1 P2 A B (g : sobj A) (h : sobj B) p q, Tidy P1 g p -> Tidy P2 h q -> Tidy never (s_and g h) (p_and p q).
Proof. intros P1 P2 A B g h p q H1 H2. exact (tidy_seq_never pair H1 H2). Qed.
Lemma n_skip_left : forall P1 P2 A B (g : sobj A) (h : sobj B) p q, Tidy P1 g p -> Tidy P2 h q -> Tidy never (s_skip_left g h) (p_skip_left p q).
Proof. intros P1 P2 A B g h p q H1 H2. exact (tidy_seq_never (fun _ y => y) H1 H2). Qed.
Lemma n_skip_right : forall P1 P2 A B (g : sobj A) (h : sobj B) p q, Tidy P1 g p -> Tidy P2 h q -> Tidy never (s_skip_right g h) (p_skip_right p q).
Proof. intros P1 P2 A B g h p q H1 H2. exact (tidy_seq_never (fun x _ => x) H1 H2). Qed.
Lemma n_opt : forall P A (g : sobj A) p, Tidy P g p -> Tidy never (s_opt g) (p_opt p).
Proof. intros P A g p H. eapply tidy_or_never; [apply tidy_map, tidy_attempt, H|apply (tidy_prim never)]. Qed.
Lemma n_spaced : forall P A (g : sobj A) p, Tidy P g p -> Tidy never (h_spaced g) (spaced p).
Proof. intros P A g p H. eapply n_skip_right; [eapply n_skip_left; [apply (tidy_prim never)|exact H]|apply (tidy_prim never)]. Qed.
Lemma d_and : forall A B (g : sobj A) (h : sobj B) p q, Tidy done g p -> Tidy done h q -> Tidy done (s_and g h) (p_and p q).
Proof. intros A B g h p q H1 H2. exact (tidy_seq_done pair H1 H2). Qed.
Lemma d_skip_left : forall A B (g : sobj A) (h : sobj B) p q, Tidy done g p -> Tidy done h q -> Tidy done (s_skip_left g h) (p_skip_left p q).
Proof. intros A B g h p q H1 H2. exact (tidy_seq_done (fun _ y => y) H1 H2). Qed.
Lemma d_skip_right : forall A B (g : sobj A) (h : sobj B) p q, Tidy done g p -> Tidy done h q -> Tidy done (s_skip_right g h) (p_skip_right p q).
Proof. intros A B g h p q H1 H2. exact (tidy_seq_done (fun x _ => x) H1 H2). Qed.
Lemma d_spaced : forall A (g : sobj A) p, Tidy done g p -> Tidy done (h_spaced g) (spaced p).
Proof. intros A g p H. apply d_skip_right; [apply d_skip_left; [apply tidy_prim|exact H]|apply tidy_prim]. Qed.
Lemma free_spaced : forall A (g : sobj A) p, Free g p -> Free (h_spaced g) (spaced p).
Proof. intros A g p H. apply free_skip_right; [apply free_skip_left; [apply free_prim|exact H]|apply free_prim]. Qed.
Lemma once_free : forall A (g : sobj A) p, Free g p -> consumes 1 p -> Tidy any (s_once g) p.
Proof. intros A g p H C. apply tidy_once_any; [now apply tidy_free|exact C]. Qed.
(** The general rules for sequences, by combinator. *)
Definition seq_rule {A B} (P1 P2 P : nat -> option nat -> nat -> Prop) (p : parser N A) (q : parser N B) (w : nat -> option nat) : Prop :=
  forall off e, off <= e -> P off (w off) e -> P1 off (took (p inp off)) e /\ forall v n, p inp off = Success v n -> off + n <= e /\ P2 (off + n) (took (q inp (off + n))) e.
Lemma g_and : forall P1 P2 P A B (g : sobj A) (h : sobj B) p q, Tidy P1 g p -> Tidy P2 h q -> seq_rule P1 P2 P p q (fun off => took (p_and p q inp off)) ->
  Tidy P (s_and g h) (p_and p q).
Proof. intros P1 P2 P A B g h p q H1 H2 K. exact (@tidy_seq a inp P1 P2 P A B _ pair g h p q H1 H2 K). Qed.
Lemma g_skip_left : forall P1 P2 P A B (g : sobj A) (h : sobj B) p q, Tidy P1 g p -> Tidy P2 h q -> seq_rule P1 P2 P p q (fun off => took (p_skip_left p q inp off)) ->
  Tidy P (s_skip_left g h) (p_skip_left p q).
Proof. intros P1 P2 P A B g h p q H1 H2 K. exact (@tidy_seq a inp P1 P2 P A B _ (fun _ y => y) g h p q H1 H2 K). Qed.
Lemma g_skip_right : forall P1 P2 P A B (g : sobj A) (h : sobj B) p q, Tidy P1 g p -> Tidy P2 h q -> seq_rule P1 P2 P p q (fun off => took (p_skip_right p q inp off)) ->
  Tidy P (s_skip_right g h) (p_skip_right p q).
Proof. intros P1 P2 P A B g h p q H1 H2 K. exact (@tidy_seq a inp P1 P2 P A B _ (fun x _ => x) g h p q H1 H2 K). Qed.
End Rules.
(** What a sequence took. *)
Section Took.
Variable inp : list N.
Definition took2 (r : option nat) (k : nat -> option nat) : option nat := match r with Some n => option_map (Nat.add n) (k n) | None => None end.
Lemma took_and : forall A B (p : parser N A) (q : parser N B) off, took (p_and p q inp off) = took2 (took (p inp off)) (fun n => took (q inp (off + n))).
Proof. intros A B p q off. unfold p_and. destruct (p inp off) as [v n| | |]; try reflexivity. cbn. destruct (q inp (off + n)); reflexivity. Qed.
Lemma took_skip_left : forall A B (p : parser N A) (q : parser N B) off, took (p_skip_left p q inp off) = took2 (took (p inp off)) (fun n => took (q inp (off + n))).
Proof. intros A B p q off. unfold p_skip_left. destruct (p inp off) as [v n| | |]; try reflexivity. cbn. destruct (q inp (off + n)); reflexivity. Qed.
Lemma took_skip_right : forall A B (p : parser N A) (q : parser N B) off, took (p_skip_right p q inp off) = took2 (took (p inp off)) (fun n => took (q inp (off + n))).
Proof. intros A B p q off. unfold p_skip_right. destruct (p inp off) as [v n| | |]; try reflexivity. cbn. destruct (q inp (off + n)); reflexivity. Qed.
Lemma took2_some : forall r k m, took2 r k = Some m -> exists n n', r = Some n /\ k n = Some n' /\ m = n + n'.
Proof. intros [n|] k m E; [|discriminate]. cbn in E. destruct (k n) as [n'|] eqn:Ek; [|discriminate]. injection E as <-. eauto. Qed.
Lemma took_some : forall A (o : outcome N A) n, took o = Some n -> exists v, o = Success v n.
Proof. intros A [v n'| | |] n E; try discriminate. injection E as <-. eauto. Qed.
End Took.

(** *** crond *)
Section Cron.
Variable a : nat -> nat.
Variable inp : list N.
Notation Tidy := (Tidy a inp).
Definition always : nat -> option nat -> nat -> Prop := fun _ _ _ => True.
Lemma elm_apart : forall c d off n, c <> d -> took (p_elm c inp off) = Some n -> took (p_elm d inp off) = None.
Proof.
  intros c d off n D E. unfold p_elm, p_elm_eq, p_elm_ref_eq, p_map, p_elm_pred_ref in *. destruct (ps_input inp off) as [[|x s]|]; try discriminate.
  destruct (N.eqb_spec x c); [|discriminate]. destruct (N.eqb_spec x d); [congruence|reflexivity].
Qed.
(** An element of a list that a comma follows. *)
Definition comma_next : nat -> option nat -> nat -> Prop := fun off r e => exists n m, r = Some n /\ off + n <= e /\ took (p_elm (chr ",") inp (off + n)) = Some m.
Lemma o_per : forall x p, Tidy any x p -> Tidy comma_next (s_opt (h_per x)) (p_opt (per p)).
Proof.
  intros x p H. unfold s_opt, p_opt.
  apply tidy_or with (P1 := fun off r e => done off r e \/ took (p_elm (chr "/") inp off) = None) (P2 := always).
  - apply tidy_map, tidy_attempt. unfold h_per, per. eapply g_skip_left; [apply (tidy_prim _ _ always)|exact H|].
    intros off e He K. split; [exact Logic.I|]. intros v m E. destruct K as [[n [E' L]]|K]; [|now rewrite E in K].
    rewrite took_skip_left in E'. apply took2_some in E'. destruct E' as (n1 & n2 & E1 & E2 & ->). rewrite E in E1. injection E1 as <-. rewrite E2. cbn. lia.
  - apply tidy_prim.
  - intros off e He (n & m & E & L & C). split; [|intros; exact Logic.I]. set (p1 := p_map (p_attempt (per p)) (@Some cexpr)) in *. unfold p_or in E.
    destruct (p1 inp off) as [w k|y c| |] eqn:E1; cbn [took] in *; try discriminate; [left; exists k; injection E as ->; auto|].
    right. destruct c; cbn [negb] in E; [discriminate|]. injection E as <-. rewrite Nat.add_0_r in C. eapply elm_apart; [|exact C]. discriminate.
Qed.
(** A range, or what begins like one. *)
Definition no_range {A} (p : parser N A) (off e : nat) : Prop := off < e /\ (took (p inp off) = None \/ comma_next off (took (p inp off)) e).
Lemma o_crange : forall x p, Tidy any x p -> Tidy (fun off r e => comma_next off r e \/ no_range p off e) (h_crange x) (crange p).
Proof.
  intros x p H. unfold h_crange, crange. apply tidy_attempt, tidy_map.
  assert (D : forall off e, no_range p off e -> took (p_skip_right p (p_elm (chr "-")) inp off) = None).
  { intros off e [L [E|(n & m & E & L' & K)]]; rewrite took_skip_right, E; cbn; [reflexivity|]. now rewrite (@elm_apart (chr ",") (chr "-") _ m) by (discriminate || exact K). }
  set (l1 := p_skip_right p (p_elm (chr "-"))) in *.
  assert (T1 : Tidy (fun off r e => done off r e \/ no_range p off e) (s_skip_right x (s_prim (p_elm (chr "-")))) l1).
  { eapply g_skip_right; [exact H|apply (tidy_prim _ _ always)|]. intros off e He [(m & E & L)|[L K]].
    - rewrite took_skip_right in E. apply took2_some in E. destruct E as (n & n' & E1 & E2 & ->). rewrite E1. split; [cbn; lia|]. intros v k E. rewrite E in E1. injection E1 as <-. split; [lia|exact Logic.I].
    - destruct K as [K|(n & m & E & L' & K)].
      + rewrite K. split; [exact L|]. intros v k E. now rewrite E in K.
      + rewrite E. split; [exact L'|]. intros v k E'. rewrite E' in E. injection E as ->. split; [exact L'|exact Logic.I]. }
  assert (T2 : Tidy (fun off r e => done off r e \/ no_range p off e) (s_and (s_skip_right x (s_prim (p_elm (chr "-")))) x) (p_and l1 p)).
  { eapply g_and; [exact T1|exact H|]. intros off e He [(m & E & L)|K].
    - rewrite took_and in E. apply took2_some in E. destruct E as (n & n' & E1 & E2 & ->). split; [left; exists n; split; [exact E1|lia]|].
      intros v k E. rewrite E in E1. injection E1 as <-. rewrite E2. split; [lia|cbn; lia].
    - split; [now right|]. intros v k E. apply D in K. now rewrite E in K. }
  eapply g_and; [exact T2|apply tidy_map, o_per, H|]. intros off e He [(m & j & E & L & C)|K].
  - rewrite took_and in E. apply took2_some in E. destruct E as (n & n' & E1 & E2 & ->). split; [left; exists n; split; [exact E1|lia]|].
    intros v k E. rewrite E in E1. injection E1 as <-. split; [lia|]. exists n', j. split; [|split; [lia|now rewrite <- Nat.add_assoc]].
    rewrite <- E2. unfold range_per, p_map. destruct (p_opt (per p) inp (off + k)); reflexivity.
  - split; [now right|]. intros v k E. apply D in K. assert (E' : took (p_and l1 p inp off) = Some k) by now rewrite E. rewrite took_and, K in E'. discriminate.
Qed.
Lemma o_element : forall x p, Tidy any x p -> consumes 1 p -> Tidy comma_next (s_or (h_crange x) x) (p_or (crange p) p).
Proof.
  intros x p H C. eapply tidy_or; [apply o_crange, H|exact H|]. cbv beta. intros off e He K. unfold p_or in K. destruct (crange p inp off) as [v n|y c| |] eqn:E;
    [split; [now left|discriminate]| |destruct K as (? & ? & K & _); discriminate..].
  destruct c; cbn [negb] in K; [destruct K as (? & ? & K & _); discriminate|]. pose proof K as (n & m & E1 & L & _). destruct (took_some _ E1) as [v Ep]. apply C in Ep.
  split; [right; split; [lia|now right]|]. intros z _. rewrite E1. exact L.
Qed.
Lemma o_digit_instruction : forall x p, Tidy any x p -> consumes 1 p -> Tidy never (h_digit_instruction (@s_once) x) (digit_instruction p).
Proof.
  intros x p H C. assert (O : forall A (q : parser N A), Tidy never (s_once (s_prim q)) q) by (intros A q; apply tidy_once_never with never, tidy_prim).
  eapply tidy_or_never; [eapply tidy_or_never|apply O].
  - apply tidy_attempt, tidy_map. eapply tidy_rep_sep; [apply o_element; [exact H|exact C]|apply free_prim|apply c_or; [now apply c_crange|exact C]|apply c_elm|].
    intros off v n w m E1 E2. exists n, m. split; [reflexivity|]. split; [reflexivity|]. now rewrite E2.
  - eapply tidy_once_never, tidy_attempt, tidy_map, n_and; [apply O|]. eapply n_skip_left; [apply (tidy_prim _ _ never)|exact H].
Qed.
Lemma o_instruction : Tidy never (h_instruction (@s_once)) instruction.
Proof.
  unfold h_instruction, instruction. apply tidy_map.
  assert (D : forall (p : parser N cexpr), consumes 1 p -> Tidy any (s_once (s_prim p)) p) by (intros p C; apply once_free; [apply free_prim|exact C]).
  assert (E : Tidy any (h_dow (@s_once)) dow).
  { apply tidy_or_any; [apply D|apply D|]; unfold day_of_week_text, day_of_week_digit; cbv zeta; cons. }
  repeat (eapply n_and; [eapply n_skip_right; [|apply (tidy_prim _ _ never)]|]); apply o_digit_instruction;
    try apply D; auto using c_min, c_hour, c_day, c_month, c_dow.
Qed.
End Cron.

(** *** toys *)
Section Toys.
Variable nd : N -> bool.
Variable a : nat -> nat.
Variable inp : list N.
Notation Tidy := (Tidy a inp).
Notation Free := (Free a inp).
Notation k := (length inp).
(** A success, or a failure of the first [p]. *)
Definition first_done {A} (p : parser N A) : nat -> option nat -> nat -> Prop := fun off r e => done off r e \/ off < e /\ took (p inp off) = None.
Lemma took_chain : forall A (p : parser N A) op off, took (p inp off) = None -> took (p_chain_left1 p op inp off) = None.
Proof. intros A p op off E. unfold p_chain_left1, p_flat_map. destruct (p inp off); try discriminate; reflexivity. Qed.
Lemma took_name : forall A (p : parser N A) s off, took (p_name p s inp off) = took (p inp off).
Proof. intros A p s off. unfold p_name. destruct (p inp off) as [v n|e c| |]; try reflexivity. destruct (is_custom e); reflexivity. Qed.
Lemma once_first : forall A B (q : parser N B) (g : sobj A) p, Tidy (first_done q) g p -> consumes 1 p -> Tidy (first_done q) (s_once g) p.
Proof.
  intros A B q g p H C. eapply tidy_once; [exact H|]. intros off e L K. split; [exact K|]. destruct K as [(n & E & K)|[K _]]; [|exact K]. destruct (took_some _ E) as [v Ep].
  apply C in Ep. lia.
Qed.
Lemma chain_first : forall A B (q : parser N B) (g : sobj A) h p op, Tidy (first_done q) g p -> (forall off, took (q inp off) = None -> took (p inp off) = None) ->
  Free h op -> consumes 1 p -> consumes 1 op -> Tidy (first_done q) (s_chain_left1 g h) (p_chain_left1 p op).
Proof.
  intros A B q g h p op H Q H2 C1 C2. eapply tidy_chain; [exact H|exact H2|exact C1|exact C2| |].
  - intros off n e _ L. left. now exists n.
  - intros off r e [K|[L K]]; [now left|right]. split; [now apply Q|]. right. now split.
Qed.
Lemma o_expression_of : forall g p, Tidy any g p -> consumes 1 p -> Tidy (first_done p) (h_expression_of (@s_once) g) (expression_of p).
Proof.
  intros g p H C.
  assert (T0 : Tidy (first_done p) g p).
  { eapply tidy_weaken; [exact H|]. intros off e _ [(n & E & L)|[L E]]; rewrite E; cbn; lia. }
  assert (C1 : consumes 1 (t_multitive p)) by (unfold t_multitive; cons; exact C).
  assert (C2 : consumes 1 (t_moditive p)) by (unfold t_moditive; cons; exact C1).
  assert (C3 : consumes 1 (t_additive p)) by (unfold t_additive; cons; exact C2).
  assert (C4 : consumes 1 (comparative p)) by (unfold comparative; cons; exact C3).
  assert (Q1 : forall off, took (p inp off) = None -> took (t_multitive p inp off) = None) by (intros off E; unfold t_multitive; rewrite took_name; now apply took_chain).
  assert (Q2 : forall off, took (p inp off) = None -> took (t_moditive p inp off) = None) by (intros off E; unfold t_moditive; rewrite took_name; apply took_chain, Q1, E).
  assert (Q3 : forall off, took (p inp off) = None -> took (t_additive p inp off) = None) by (intros off E; unfold t_additive; rewrite took_name; apply took_chain, Q2, E).
  assert (T1 : Tidy (first_done p) (h_multitive (@s_once) g) (t_multitive p)).
  { apply once_first; [|exact C1]. apply tidy_name, chain_first; [exact T0|auto|apply free_prim|exact C|apply c_map_panic, c_or; apply c_sym]. }
  assert (T2 : Tidy (first_done p) (h_moditive (@s_once) g) (t_moditive p)).
  { apply once_first; [|exact C2]. apply tidy_name, chain_first; [exact T1|exact Q1|apply free_prim|exact C1|apply c_map_panic, c_sym]. }
  assert (T3 : Tidy (first_done p) (h_additive (@s_once) g) (t_additive p)).
  { apply once_first; [|exact C3]. apply tidy_name, chain_first; [exact T2|exact Q2|apply free_prim|exact C2|apply c_map_panic, c_or; apply c_sym]. }
  apply once_first; [|apply c_name, C4]. apply tidy_name. apply once_first; [|exact C4].
  apply tidy_name, chain_first; [exact T3|exact Q3|apply free_prim|exact C3|]. apply c_map_panic, c_spaced. cons.
Qed.
Lemma o_primary : forall P e p, Tidy P e p -> Tidy any (h_primary_of (@s_once) nd e) (primary_of nd p).
Proof.
  intros P e p H. assert (L : Free (s_lazy e) (p_lazy (fun _ => p))) by exact (tidy_lazy H). assert (Pr : forall A (q : parser N A), Free (s_prim q) q) by (intros; apply free_prim).
  assert (Cp : consumes 1 (primary_of nd p)) by apply c_primary.
  assert (C1 : consumes 1 (function_call p)) by (apply c_name, c_attempt, c_spaced, c_map; eapply c_and with (i := 1) (j := 0); [apply c_ident|apply c_zero|lia]).
  assert (C2 : consumes 1 (labelled_call p)) by (apply c_name, c_attempt, c_spaced, c_map; eapply c_and with (i := 1) (j := 0); [apply c_ident|apply c_zero|lia]).
  assert (C3 : consumes 1 (array_literal p)).
  { apply c_name, c_spaced, c_map. eapply c_surround with (i := 1) (j := 0) (k := 0); [apply c_ttag with (k := 1); cbn; lia|apply c_zero|apply c_zero|lia]. }
  assert (C4 : consumes 1 bool_literal) by (apply c_name, c_spaced, c_map_panic; cons).
  assert (C5 : consumes 1 identifier) by (apply c_name, c_map, c_ident).
  assert (C6 : consumes 1 string_literal).
  { apply c_name, c_attempt, c_map. unfold string_p. apply c_map. eapply c_surround with (i := 1) (j := 0) (k := 0); [apply c_elm_ref|apply c_zero|apply c_zero|lia]. }
  unfold h_primary_of. apply tidy_once_any; [|exact Cp]. apply tidy_name. apply tidy_once_any.
  2:{ intros i off v n E. apply (Cp i off v n). unfold primary_of, p_name. rewrite E. reflexivity. }
  repeat (apply tidy_or_any; [|apply once_free; [|first [assumption|apply c_integer]]|first [assumption|apply c_integer]]).
  - apply tidy_free, free_map, free_skip_right; [apply free_skip_left; [apply Pr|exact L]|apply Pr].
  - apply Pr.
  - apply Pr.
  - apply free_name, free_attempt, free_spaced, free_map, free_and; [apply Pr|]. apply free_surround; [apply Pr|apply free_many0_sep; [exact L|apply Pr]|apply Pr].
  - apply free_name, free_attempt, free_spaced, free_map, free_and; [apply Pr|]. apply free_surround; [apply Pr|apply free_many1_sep; [|apply Pr]|apply Pr].
    apply free_map, free_and; [apply free_skip_right; apply Pr|exact L].
  - apply free_name, free_spaced, free_map, free_surround; [apply Pr|apply free_many0_sep; [exact L|apply Pr]|apply Pr].
  - apply Pr.
  - apply Pr.
Qed.
Lemma o_expression_fuel : forall n, Tidy (first_done (primary_of nd (expression_fuel nd (pred n)))) (h_expression_fuel (@s_once) nd n) (expression_fuel nd n).
Proof.
  induction n as [|n IH]; [apply tidy_prim|]. cbn [h_expression_fuel expression_fuel pred]. apply o_expression_of; [eapply o_primary, IH|apply c_primary].
Qed.
(** The primary of the expressions of [line] and [program]. *)
Definition first_primary : parser N expr := primary_of nd (expression_fuel nd k).
Lemma o_expression : Tidy (first_done first_primary) (h_expression (@s_once) nd k) (expression nd).
Proof. apply tidy_ext with (expression_fuel nd (S k)); [reflexivity|apply (o_expression_fuel (S k))]. Qed.
Lemma o_expression_done : Tidy done (h_expression (@s_once) nd k) (expression nd).
Proof. eapply tidy_weaken; [apply o_expression|]. intros off e _ K. now left. Qed.
Lemma o_block : forall P l p, Tidy P l p -> Tidy any (h_block (@s_once) l) (block p).
Proof.
  intros P l p H. apply once_free; [|eapply c_weaken; [apply c_block|lia]].
  apply free_name, free_spaced, free_map, free_surround; [apply free_prim|apply free_many0; exact (tidy_lazy H)|apply free_prim].
Qed.
Lemma o_line_of : forall P l p, Tidy P l p -> Tidy never (h_line_of (@s_once) nd k l) (line_of nd p).
Proof.
  intros P l p H. assert (L : Free (s_lazy l) (p_lazy (fun _ => p))) by exact (tidy_lazy H).
  assert (E : Free (s_lazy (h_expression (@s_once) nd k)) (p_lazy (fun _ => expression nd))) by exact (tidy_lazy o_expression).
  assert (Pr : forall A (q : parser N A), Free (s_prim q) q) by (intros; apply free_prim). pose proof o_expression as X.
  assert (Pf : forall A (q : parser N A), Tidy never (s_prim q) q) by (intros; apply tidy_prim).
  eapply tidy_once_never, tidy_name, n_spaced. eapply tidy_or_never; [eapply tidy_or_never; [eapply tidy_or_never; [eapply tidy_or_never; [eapply tidy_or_never; [eapply tidy_or_never|]|]|]|]|].
  - eapply tidy_once_never, tidy_name, tidy_attempt, n_spaced, (tidy_free never), free_map, free_skip_right; [|apply Pr]. apply free_skip_left; [apply Pr|]. apply free_surround; [apply Pr|exact E|apply Pr].
  - apply (tidy_free never). eapply tidy_lazy. eapply tidy_once_never, tidy_name, tidy_attempt, n_spaced, (tidy_free never), free_map, free_and; [|exact L]. apply free_skip_left; [apply Pr|]. apply free_surround; [apply Pr|exact E|apply Pr].
  - apply (tidy_free never). eapply tidy_lazy. eapply tidy_once_never, tidy_name, tidy_attempt, n_spaced, tidy_map, n_and.
    + eapply n_and; [|exact H]. eapply n_skip_right; [|apply Pf]. eapply n_skip_left; [|exact X]. eapply n_skip_left; apply Pf.
    + eapply n_opt, n_skip_left; [apply Pf|exact H].
  - apply (tidy_free never). eapply tidy_lazy. eapply tidy_once_never, tidy_name, tidy_attempt, n_spaced, tidy_map, n_and; [|apply (tidy_free never), L]. eapply n_skip_left; [apply Pf|].
    eapply n_skip_right; [eapply n_skip_right; [|apply Pf]|apply Pf]. eapply n_and; [|exact X]. eapply n_skip_right; [|apply Pf]. eapply n_and; [|exact X].
    eapply n_skip_right; [eapply n_skip_left; apply Pf|apply Pf].
  - eapply tidy_once_never, tidy_name, tidy_attempt, n_spaced, tidy_map, n_skip_right; [|apply Pf]. eapply n_and; [eapply n_skip_right; apply Pf|exact X].
  - eapply tidy_once_never, tidy_name, tidy_attempt, n_skip_right; [exact X|apply Pf].
  - eapply o_block, H.
Qed.
Lemma o_line_fuel : forall n, Tidy never (h_line_fuel (@s_once) nd k n) (line_fuel nd n).
Proof. induction n as [|n IH]; [apply tidy_prim|]. cbn [h_line_fuel line_fuel]. eapply o_line_of, IH. Qed.
Lemma o_line : Tidy never (h_line (@s_once) nd k) (line nd).
Proof. apply tidy_ext with (line_fuel nd (S (length inp))); [reflexivity|apply o_line_fuel]. Qed.

(** Where a definition begins with fn it does not begin with global. *)
Definition global_head : parser N name := p_skip_right (p_skip_left (t_tag (bs "global")) ident) (t_tag (bs "=")).
Lemma tag_apart : forall off n, took (p_tag (bs "fn") inp off) = Some n -> took (p_tag (bs "global") inp off) = None.
Proof.
  intros off n. unfold p_tag, p_tag_by. destruct (ps_input inp off) as [[|c s]|]; try discriminate.
  change (bs "fn") with [chr "f"; chr "n"]. change (bs "global") with (chr "g" :: bs "lobal"). cbn [tag_loop].
  destruct (N.eqb_spec (chr "f") c) as [<-|]; [|discriminate]. reflexivity.
Qed.
Definition no_global (off e : nat) : Prop :=
  off < e /\ took (p_skip_left t_space global_head inp off) = None /\ forall n, took (t_space inp off) = Some n -> off + n <= e.
Lemma fn_no_global : forall off n e, took (function_definition nd inp off) = Some n -> off + n <= e -> no_global off e.
Proof.
  intros off n e E L. assert (C : 1 <= n).
  { destruct (took_some _ E) as [v Ev]. revert Ev. assert (C : consumes 1 (function_definition nd)); [|apply C].
    apply c_name, c_spaced, c_map. eapply c_and with (i := 0) (j := 2); [apply c_zero|apply c_block|lia]. }
  split; [lia|]. unfold function_definition, spaced in E. rewrite took_name, took_skip_right in E. apply took2_some in E. destruct E as (m1 & m0 & E & _ & E0). rewrite took_skip_left in E.
  apply took2_some in E. destruct E as (m2 & m3 & E1 & E2 & E3). split; [|intros m E; rewrite E in E1; injection E1 as ->; lia]. rewrite took_skip_left, E1.
  assert (F : took (p_skip_left t_space (p_tag (bs "fn")) inp (off + m2)) <> None).
  { intros F. assert (G : took (p_and (p_and (p_skip_right (p_skip_left (p_skip_left (p_skip_left t_space (p_tag (bs "fn"))) t_space) ident) t_space)
      (p_surround lparen (p_many0_sep ident comma) rparen)) (block (line nd)) inp (off + m2)) = None).
    { rewrite took_and, took_and, took_skip_right, took_skip_left, took_skip_left, F. reflexivity. }
    unfold p_map in E2. destruct (p_and _ _ _ _); discriminate. }
  rewrite took_skip_left in F. destruct (took (t_space inp (off + m2))) as [m4|] eqn:E4; [|now elim F]. cbn [took2] in F.
  destruct (took (p_tag (bs "fn") inp (off + m2 + m4))) as [m5|] eqn:E5; [|now elim F].
  unfold global_head, t_tag at 1, spaced. cbn [took2]. rewrite took_skip_right, took_skip_left, took_skip_right, took_skip_left, E4. cbn [took2]. rewrite (tag_apart _ E5). reflexivity.
Qed.
Lemma c_global : consumes 1 (global_variable_definition nd).
Proof.
  apply c_name, c_spaced, c_map. eapply c_skip_right with (i := 1) (j := 0); [|apply c_zero|lia]. eapply c_and with (i := 1) (j := 0); [|apply c_zero|lia].
  eapply c_skip_right with (i := 1) (j := 0); [|apply c_zero|lia]. eapply c_skip_left with (i := 1) (j := 0); [apply c_ttag; cbn; lia|apply c_zero|lia].
Qed.
Lemma took_map : forall A B (p : parser N A) (f : A -> B) off, took (p_map p f inp off) = took (p inp off).
Proof. intros A B p f off. unfold p_map. destruct (p inp off); reflexivity. Qed.
Lemma o_global : Tidy (fun off r e => done off r e \/ no_global off e) (h_global_variable_definition (@s_once) nd k) (global_variable_definition nd).
Proof.
  eapply tidy_once with (P1 := fun off r e => done off r e \/ no_global off e).
  2:{ intros off e L K. split; [exact K|]. destruct K as [(n & E & K)|[K _]]; [|exact K]. destruct (took_some _ E) as [v Ep]. apply c_global in Ep. lia. }
  apply tidy_name. unfold h_spaced. fold global_head. set (h0 := s_map _ _). set (b0 := p_map _ _).
  assert (T2 : Tidy (fun off r e => done off r e \/ took (global_head inp off) = None) h0 b0).
  { apply tidy_map. eapply g_skip_right with (P1 := fun off r e => done off r e \/ took (global_head inp off) = None); [|apply (tidy_prim _ _ always)|].
    - eapply g_and; [apply (tidy_prim _ _ always)|apply o_expression_done|]. intros off e L K. split; [exact Logic.I|]. intros v n E.
      destruct K as [(m & E' & K)|K]; [|now rewrite E in K]. rewrite took_and in E'. apply took2_some in E'. destruct E' as (n1 & n2 & E1 & E2 & ->). rewrite E in E1. injection E1 as <-.
      split; [lia|]. exists n2. split; [exact E2|lia].
    - intros off e L [(m & E & K)|K].
      + rewrite took_skip_right in E. apply took2_some in E. destruct E as (n1 & n2 & E1 & E2 & ->). split; [left; exists n1; split; [exact E1|lia]|].
        intros v n E. rewrite E in E1. injection E1 as <-. split; [lia|exact Logic.I].
      + split; [now right|]. intros v n E. assert (E' : took (p_and global_head (expression nd) inp off) = Some n) by now rewrite E. rewrite took_and, K in E'. discriminate. }
  assert (G : forall off, took (global_head inp off) = None -> took (b0 inp off) = None) by (intros off E; unfold b0; now rewrite took_map, took_skip_right, took_and, E).
  assert (T3 : Tidy (fun off r e => done off r e \/ no_global off e) (s_skip_left (s_prim t_space) h0) (p_skip_left t_space b0)).
  { eapply g_skip_left; [apply (tidy_prim _ _ always)|exact T2|]. intros off e L K. split; [exact Logic.I|]. intros v n E. assert (En : took (t_space inp off) = Some n) by now rewrite E.
    destruct K as [(m & E' & K)|(K1 & K2 & K3)].
    - rewrite took_skip_left in E'. apply took2_some in E'. destruct E' as (n1 & n2 & E1 & E2 & ->). rewrite E in E1. injection E1 as <-. split; [lia|]. left. exists n2. split; [exact E2|lia].
    - split; [now apply K3|]. right. rewrite took_skip_left, En in K2. cbn [took2] in K2. destruct (took (global_head inp (off + n))); [discriminate|reflexivity]. }
  eapply g_skip_right; [exact T3|apply (tidy_prim _ _ always)|]. intros off e L [(m & E & K)|K].
  - rewrite took_skip_right in E. apply took2_some in E. destruct E as (n1 & n2 & E1 & E2 & ->). split; [left; exists n1; split; [exact E1|lia]|].
    intros v n E. rewrite E in E1. injection E1 as <-. split; [lia|exact Logic.I].
  - split; [now right|]. intros v n E. assert (E' : took (p_skip_left t_space b0 inp off) = Some n) by now rewrite E. destruct K as (_ & K & _). rewrite took_skip_left in K, E'.
    destruct (took (t_space inp off)) as [m|]; [|discriminate]. cbn [took2] in K, E'. destruct (took (global_head inp (off + m))) eqn:Eg; [discriminate|]. rewrite (G _ Eg) in E'. discriminate.
Qed.
Lemma o_top : Tidy done (h_top_level_definition (@s_once) nd k) (top_level_definition nd).
Proof.
  apply tidy_name. eapply tidy_or; [apply o_global| |].
  - unfold h_function_definition, function_definition. apply tidy_once_done.
    + apply tidy_name, d_spaced, tidy_map, d_and; [apply tidy_prim|]. eapply tidy_any_done, o_block, o_line.
    + apply c_name, c_spaced, c_map. eapply c_and with (i := 0) (j := 2); [apply c_zero|apply c_block|lia].
  - intros off e L (n & E & K). unfold p_or in E. destruct (global_variable_definition nd inp off) as [v m|x c| |] eqn:Eg; [split; [left; exists n; split; [exact E|exact K]|discriminate]| |discriminate..].
    destruct c; cbn [negb] in E; [discriminate|]. split; [right; now apply fn_no_global with n|]. intros y _. now exists n.
Qed.
Lemma o_program : Tidy never (h_program (@s_once) nd k) (program nd).
Proof.
  eapply n_skip_left; [apply (tidy_prim _ _ never)|]. apply tidy_map. eapply tidy_rep; [apply o_top|apply c_top|]. intros off v n _. now exists n.
Qed.
(** *** Lines: toys/src/parsers.rs 93-100 *)
Section Lines.
Hypothesis nd_ascii : forall x, (x < 128)%N -> (nd x = true <-> digit x).
Lemma took_attempt : forall A (p : parser N A) off, took (p_attempt p inp off) = took (p inp off).
Proof. intros A p off. unfold p_attempt, with_uncommitted. destruct (p inp off) as [v n|e c| |]; try reflexivity. destruct c; reflexivity. Qed.
(** An assignment that stops in its head or at the first primary of its expression. *)
Definition no_assign (off e : nat) : Prop := off < e /\ (forall n, took (t_space inp off) = Some n -> off + n <= e) /\
  forall n, took (assign_head inp off) = Some n -> off + n < e /\ took (first_primary inp (off + n)) = None.
Lemma took_expression : forall off, took (first_primary inp off) = None -> took (expression nd inp off) = None.
Proof.
  intros off E. change (expression nd inp off) with (expression_of first_primary inp off). unfold expression_of, comparative, t_additive, t_moditive, t_multitive.
  rewrite !took_name. repeat (apply took_chain; rewrite ?took_name). exact E.
Qed.
Lemma c_assignment : consumes 1 (assignment nd).
Proof.
  apply c_name, c_attempt, c_spaced, c_map. eapply c_skip_right with (i := 1) (j := 0); [|apply c_zero|lia]. eapply c_and with (i := 1) (j := 0); [|apply c_zero|lia].
  eapply c_skip_right with (i := 1) (j := 0); [apply c_ident|apply c_zero|lia].
Qed.
Lemma o_assignment : Tidy (fun off r e => done off r e \/ no_assign off e) (h_assignment (@s_once) nd k) (assignment nd).
Proof.
  unfold h_assignment. eapply tidy_once with (P1 := fun off r e => done off r e \/ no_assign off e).
  2:{ intros off e L K. split; [exact K|]. destruct K as [(n & E & K)|[K _]]; [|exact K]. destruct (took_some _ E) as [v Ep]. apply c_assignment in Ep. lia. }
  apply tidy_name, tidy_attempt. unfold h_spaced. set (h0 := s_map _ _). set (b0 := p_map _ _).
  set (hd := p_skip_right ident (t_tag (bs "="))) in *.
  assert (T2 : Tidy (fun off r e => done off r e \/ forall n, took (hd inp off) = Some n -> off + n < e /\ took (first_primary inp (off + n)) = None) h0 b0).
  { apply tidy_map. eapply g_skip_right with (P1 := fun off r e => done off r e \/ forall n, took (hd inp off) = Some n -> off + n < e /\ took (first_primary inp (off + n)) = None);
      [|apply (tidy_prim _ _ always)|].
    - eapply g_and with (P1 := always); [eapply tidy_free, free_skip_right; apply free_prim|apply o_expression|]. intros off e L K. split; [exact Logic.I|]. intros v n E.
      assert (En : took (hd inp off) = Some n) by now rewrite E. destruct K as [(m & E' & K)|K].
      + rewrite took_and in E'. apply took2_some in E'. destruct E' as (n1 & n2 & E1 & E2 & ->). rewrite En in E1. injection E1 as <-.
        split; [lia|]. left. exists n2. split; [exact E2|lia].
      + destruct (K n En) as [K1 K2]. split; [lia|]. right. split; [exact K1|exact K2].
    - intros off e L [(m & E & K)|K].
      + rewrite took_skip_right in E. apply took2_some in E. destruct E as (n1 & n2 & E1 & E2 & ->). split; [left; exists n1; split; [exact E1|lia]|].
        intros v n E. rewrite E in E1. injection E1 as <-. split; [lia|exact Logic.I].
      + split; [now right|]. intros v n E. assert (E' : took (p_and hd (expression nd) inp off) = Some n) by now rewrite E. rewrite took_and in E'. apply took2_some in E'.
        destruct E' as (n1 & n2 & E1 & E2 & _). destruct (K n1 E1) as [_ K2]. rewrite (took_expression _ K2) in E2. discriminate. }
  assert (G : forall off, (forall n, took (hd inp off) = Some n -> took (first_primary inp (off + n)) = None) -> took (b0 inp off) = None).
  { intros off E. unfold b0. rewrite took_map, took_skip_right, took_and. fold hd. destruct (took (hd inp off)) as [n|]; [|reflexivity]. cbn [took2].
    now rewrite (took_expression _ (E n eq_refl)). }
  assert (T3 : Tidy (fun off r e => done off r e \/ no_assign off e) (s_skip_left (s_prim t_space) h0) (p_skip_left t_space b0)).
  { eapply g_skip_left; [apply (tidy_prim _ _ always)|exact T2|]. intros off e L K. split; [exact Logic.I|]. intros v n E. assert (En : took (t_space inp off) = Some n) by now rewrite E.
    destruct K as [(m & E' & K)|(K1 & K2 & K3)].
    - rewrite took_skip_left in E'. apply took2_some in E'. destruct E' as (n1 & n2 & E1 & E2 & ->). rewrite E in E1. injection E1 as <-. split; [lia|]. left. exists n2. split; [exact E2|lia].
    - split; [now apply K2|]. right. intros m Em. rewrite <- Nat.add_assoc. apply K3. unfold assign_head. fold hd. rewrite took_skip_left, En. cbn [took2]. rewrite Em. reflexivity. }
  eapply g_skip_right; [exact T3|apply (tidy_prim _ _ always)|]. intros off e L [(m & E & K)|K].
  - rewrite took_skip_right in E. apply took2_some in E. destruct E as (n1 & n2 & E1 & E2 & ->). split; [left; exists n1; split; [exact E1|lia]|].
    intros v n E. rewrite E in E1. injection E1 as <-. split; [lia|exact Logic.I].
  - split; [now right|]. intros v n E. exfalso. assert (E' : took (p_skip_left t_space b0 inp off) = Some n) by now rewrite E. destruct K as (_ & _ & K). rewrite took_skip_left in E'.
    unfold assign_head in K. fold hd in K. rewrite took_skip_left in K. destruct (took (t_space inp off)) as [m|]; [|discriminate]. cbn [took2] in K, E'. rewrite G in E'; [discriminate|].
    intros n' En'. rewrite En' in K. destruct (K (m + n') eq_refl) as [_ K2]. now rewrite <- Nat.add_assoc.
Qed.
Lemma o_expression_line : Tidy (first_done first_primary) (h_expression_line (@s_once) nd k) (expression_line nd).
Proof.
  unfold h_expression_line. apply once_first.
  2:{ apply c_name, c_attempt. eapply c_skip_right with (i := 1) (j := 0); [apply c_expression|apply c_zero|lia]. }
  apply tidy_name, tidy_attempt. eapply g_skip_right; [apply o_expression|apply (tidy_prim _ _ always)|]. intros off e L [(m & E & K)|[K1 K2]].
  - rewrite took_skip_right in E. apply took2_some in E. destruct E as (n1 & n2 & E1 & E2 & ->). split; [left; exists n1; split; [exact E1|lia]|].
    intros v n E. rewrite E in E1. injection E1 as <-. split; [lia|exact Logic.I].
  - split; [right; now split|]. intros v n E. apply took_expression in K2. rewrite E in K2. discriminate.
Qed.
(** Where the line is an expression or a block, the assignment stopped in time. *)
Lemma expression_no_assign : forall off n e, took (expression_line nd inp off) = Some n -> off + n <= e -> no_assign off e.
Proof.
  intros off n e E L. destruct (took_some _ E) as [v Ev]. assert (C : 1 <= n).
  { revert Ev. assert (C : consumes 1 (expression_line nd)); [|apply C]. apply c_name, c_attempt. eapply c_skip_right with (i := 1) (j := 0); [apply c_expression|apply c_zero|lia]. }
  split; [lia|]. split.
  - intros m Em. destruct (took_some _ Em) as [y Ey]. pose proof (space_before_line nd nd_ascii inp (space_inside inp off Ey) Ey Ev). lia.
  - intros m Em. destruct (took_some _ Em) as [x Ex].
    assert (Ho : off <= k). { unfold assign_head in Em. rewrite took_skip_left in Em. apply took2_some in Em. destruct Em as (n1 & _ & E1 & _). destruct (took_some _ E1) as [y Ey]. now apply space_inside in Ey. }
    destruct (line_or_assign nd nd_ascii inp Ho Ev Ex) as [H1 [r Hr]]. split; [lia|].
    destruct (took (first_primary inp (off + m))) as [j|] eqn:Ej; [|reflexivity]. destruct (took_some _ Ej) as [w Ew]. exfalso. eapply (equals_no_primary nd nd_ascii inp) with (off := off + m); [|exact Hr|exact Ew].
    assert (length (skipn (off + m) inp) <> 0) by (rewrite Hr; discriminate). rewrite skipn_length in H. lia.
Qed.
Lemma block_no_assign : forall l off n e, took (block l inp off) = Some n -> off + n <= e -> no_assign off e /\ took (first_primary inp off) = None.
Proof.
  intros l off n e E L. assert (C : 2 <= n) by (destruct (took_some _ E) as [v Ev]; exact (@c_block l _ _ _ _ Ev)).
  unfold block, spaced in E. rewrite took_name, took_skip_right in E. apply took2_some in E. destruct E as (m1 & m0 & E & _ & E0). rewrite took_skip_left in E.
  apply took2_some in E. destruct E as (m2 & m3 & E1 & E2 & E3). destruct (took_some _ E1) as [y Ey]. pose proof (space_inside inp off Ey) as Ho.
  assert (B : exists v b, p_skip_left t_space lbrace inp off = Success v b).
  { rewrite took_map in E2. unfold p_surround, p_map in E2. rewrite ?took_skip_right, ?took_skip_left in E2. destruct (took (lbrace inp (off + m2))) as [m4|] eqn:E4; [|discriminate].
    destruct (took (p_skip_left t_space lbrace inp off)) as [b|] eqn:Eb; [destruct (took_some _ Eb) as [v Ev]; eauto|]. rewrite took_skip_left, E1 in Eb. cbn [took2] in Eb. rewrite E4 in Eb. discriminate. }
  destruct B as (v & b & B). split; [split; [lia|split]|].
  - intros m Em. rewrite Em in E1. injection E1 as ->. lia.
  - intros m Em. destruct (took_some _ Em) as [x Ex]. destruct (brace_no_assign inp Ho B Ex).
  - destruct (took (first_primary inp off)) as [j|] eqn:Ej; [|reflexivity]. destruct (took_some _ Ej) as [w Ew]. destruct (brace_no_primary nd nd_ascii inp Ho B Ew).
Qed.
Lemma o_line_of_done : forall P l p, Tidy P l p -> Tidy done (h_line_of (@s_once) nd k l) (line_of nd p).
Proof.
  intros P l p H. assert (L : Free (s_lazy l) (p_lazy (fun _ => p))) by exact (tidy_lazy H).
  assert (E : Free (s_lazy (h_expression (@s_once) nd k)) (p_lazy (fun _ => expression nd))) by exact (tidy_lazy o_expression).
  assert (Pr : forall A (q : parser N A), Free (s_prim q) q) by (intros; apply free_prim). pose proof o_expression as X.
  assert (Pf : forall A (q : parser N A), Tidy never (s_prim q) q) by (intros; apply tidy_prim).
  unfold h_line_of. apply tidy_once_done; [|eapply c_weaken; [apply c_line_of|lia]]. apply tidy_name, d_spaced.
  match goal with |- CacheTidy.Tidy _ _ _ (s_or (s_or (s_or ?g _) _) _) (p_or (p_or (p_or ?q _) _) _) => set (g4 := g); set (p4 := q) end.
  assert (T4 : Tidy any g4 p4).
  { apply tidy_or_any; [apply tidy_or_any; [apply tidy_or_any| |]| |].
    - apply once_free.
      + apply free_name, free_attempt, free_spaced, free_map, free_skip_right; [|apply Pr]. apply free_skip_left; [apply Pr|]. apply free_surround; [apply Pr|exact E|apply Pr].
      + apply c_name, c_attempt, c_spaced, c_map. eapply c_skip_right with (i := 1) (j := 0); [eapply c_skip_left with (i := 1) (j := 0); [apply c_tag; cbn; lia|apply c_zero|lia]|apply c_zero|lia].
    - apply (tidy_free any). eapply tidy_lazy. eapply tidy_once_never, tidy_name, tidy_attempt, n_spaced, (tidy_free never), free_map, free_and; [|exact L]. apply free_skip_left; [apply Pr|]. apply free_surround; [apply Pr|exact E|apply Pr].
    - apply c_lazy, c_name, c_attempt, c_spaced, c_map. eapply c_and with (i := 1) (j := 0); [|apply c_zero|lia]. eapply c_skip_left with (i := 1) (j := 0); [apply c_ttag; cbn; lia|apply c_zero|lia].
    - apply (tidy_free any). eapply tidy_lazy. eapply tidy_once_never, tidy_name, tidy_attempt, n_spaced, tidy_map, n_and.
      + eapply n_and; [|exact H]. eapply n_skip_right; [|apply Pf]. eapply n_skip_left; [|exact X]. eapply n_skip_left; apply Pf.
      + eapply n_opt, n_skip_left; [apply Pf|exact H].
    - apply c_lazy, c_name, c_attempt, c_spaced, c_map. eapply c_and with (i := 1) (j := 0); [|apply c_zero|lia]. eapply c_and with (i := 1) (j := 0); [|apply c_zero|lia].
      eapply c_skip_right with (i := 1) (j := 0); [|apply c_zero|lia]. eapply c_skip_left with (i := 1) (j := 0); [|apply c_zero|lia]. eapply c_skip_left with (i := 1) (j := 0); [|apply c_zero|lia].
      eapply c_skip_right with (i := 1) (j := 0); [apply c_tag; cbn; lia|apply c_zero|lia].
    - apply (tidy_free any). eapply tidy_lazy. eapply tidy_once_never, tidy_name, tidy_attempt, n_spaced, tidy_map, n_and; [|apply (tidy_free never), L]. eapply n_skip_left; [apply Pf|].
      eapply n_skip_right; [eapply n_skip_right; [|apply Pf]|apply Pf]. eapply n_and; [|exact X]. eapply n_skip_right; [|apply Pf]. eapply n_and; [|exact X].
      eapply n_skip_right; [eapply n_skip_left; apply Pf|apply Pf].
    - apply c_lazy, c_name, c_attempt, c_spaced, c_map. eapply c_and with (i := 1) (j := 0); [|apply c_zero|lia]. eapply c_skip_left with (i := 1) (j := 0); [|apply c_zero|lia].
      eapply c_skip_right with (i := 1) (j := 0); [apply c_tag; cbn; lia|apply c_zero|lia]. }
  set (P5 := fun off r e => done off r e \/ (r = None /\ no_assign off e)).
  set (P6 := fun off r e => done off r e \/ (r = None /\ no_assign off e /\ took (first_primary inp off) = None)).
  assert (T5 : Tidy P5 (s_or g4 (h_assignment (@s_once) nd k)) (p_or p4 (assignment nd))).
  { eapply tidy_or; [exact T4|apply o_assignment|]. intros off e He K. unfold p_or in K.
    assert (K0 : forall r, P5 off r e -> r = None -> off < e) by (intros r [(m & -> & _)|(_ & Lt & _)]; [discriminate|auto]).
    destruct (p4 inp off) as [v n|x c| |] eqn:Ep; [|destruct c; cbn [negb] in K| |]; try (split; [exact (K0 _ K eq_refl)|discriminate]).
    - split; [|discriminate]. destruct K as [(m & E1 & K)|(K & _)]; [injection E1 as ->; exact K|discriminate].
    - split; [|intros y _; destruct K as [K|(_ & K)]; [now left|now right]]. destruct K as [(m & E1 & K)|(_ & Lt & _)]; [|exact Lt].
      destruct (took_some _ E1) as [v Ev]. apply c_assignment in Ev. cbn [took]. unfold any. lia. }
  assert (T6 : Tidy P6 (s_or (s_or g4 (h_assignment (@s_once) nd k)) (h_expression_line (@s_once) nd k)) (p_or (p_or p4 (assignment nd)) (expression_line nd))).
  { eapply tidy_or; [exact T5|apply o_expression_line|]. intros off e He K. unfold p_or at 1 in K. set (q := p_or p4 (assignment nd)) in *.
    destruct (q inp off) as [v n|x c| |] eqn:Ep; [|destruct c; cbn [negb] in K| |];
      try (split; [destruct K as [(m & E1 & K)|(K1 & K2 & _)]; [discriminate|right; now split]|discriminate]).
    - split; [|discriminate]. destruct K as [K|(K & _)]; [now left|discriminate].
    - destruct K as [(m & E1 & K)|(K1 & K2 & K3)].
      + split; [right; split; [reflexivity|now apply expression_no_assign with m]|]. intros y _. left. now exists m.
      + split; [right; now split|]. intros y _. right. split; [exact (proj1 K2)|exact K3]. }
  eapply tidy_or; [exact T6|eapply o_block, H|]. intros off e He K. unfold p_or at 1 in K. set (q := p_or (p_or p4 (assignment nd)) (expression_line nd)) in *.
  destruct (q inp off) as [v n|x c| |] eqn:Ep; [|destruct c; cbn [negb] in K| |]; try (destruct K as (m & E1 & _); discriminate).
  - split; [now left|discriminate].
  - destruct K as (m & E1 & K). destruct (block_no_assign _ _ E1 K) as [K1 K2]. split; [right; now split|]. intros y _. unfold any. rewrite E1. exact K.
Qed.
Lemma o_line_done : Tidy done (h_line (@s_once) nd k) (line nd).
Proof. apply tidy_ext with (line_fuel nd (S (length inp))); [reflexivity|]. unfold h_line. cbn [h_line_fuel line_fuel]. eapply o_line_of_done, o_line_fuel. Qed.
Lemma o_lines : Tidy never (h_lines (@s_once) nd k) (lines nd).
Proof.
  unfold h_lines, lines. eapply n_skip_right; [|apply (tidy_prim _ _ never)]. eapply n_skip_right; [|apply (tidy_prim _ _ never)]. eapply tidy_rep; [apply o_line_done|apply c_line|].
  intros off v n _. now exists n.
Qed.
End Lines.
End Toys.

(** *** The benchmark *)
Section Bench.
Variable F : Type.
Variable f64_parse : list N -> F + unit.
Variable lossy : list N -> list N.
Variable bytes : bool.
Variable a : nat -> nat.
Variable inp : list N.
Notation Tidy := (Tidy a inp).
Notation Free := (Free a inp).
(** The cache between the quotes may have read nothing; the quote after it is read. *)
Lemma o_b_string : Tidy done (h_b_string (@s_once) lossy bytes) (b_string lossy bytes).
Proof.
  assert (O : forall A (q : parser N A), Tidy (fun off r e => exists n, r = Some n /\ off + n < e) (s_once (s_prim q)) q).
  { intros A q. apply tidy_once with always; [apply tidy_prim|]. intros off e _ (n & _ & L). split; [exact Logic.I|lia]. }
  assert (Q : forall A B (g : sobj A) (p : parser N A) (q : parser N B), Tidy (fun off r e => exists n, r = Some n /\ off + n < e) g p -> consumes 1 q ->
    Tidy done (s_skip_right g (s_prim q)) (p_skip_right p q)).
  { intros A B g p q H C. eapply g_skip_right; [exact H|apply (tidy_prim _ _ always)|]. intros off e L (n & E & K). rewrite took_skip_right in E. apply took2_some in E.
    destruct E as (n1 & n2 & E1 & E2 & ->). destruct (took_some _ E2) as [v Ev]. apply C in Ev. split; [exists n1; split; [exact E1|lia]|].
    intros w m E. rewrite E in E1. injection E1 as <-. split; [lia|exact Logic.I]. }
  unfold h_b_string, b_string. destruct bytes; apply tidy_map.
  - apply Q; [|apply c_elm]. eapply g_skip_left; [apply (tidy_prim _ _ always)|apply O|]. intros off e L (n & E & K). split; [exact Logic.I|]. intros v m E'.
    rewrite took_skip_left in E. apply took2_some in E. destruct E as (n1 & n2 & E1 & E2 & ->). rewrite E' in E1. injection E1 as <-. split; [lia|]. exists n2. split; [exact E2|lia].
  - apply d_skip_left; [apply tidy_prim|]. apply Q; [apply O|apply c_elm_ref].
Qed.
Lemma o_b_value_step : forall P g v, Tidy P g v -> consumes 1 v -> Tidy never (h_b_value_step (@s_once) f64_parse lossy bytes g) (b_value_step f64_parse lossy bytes v).
Proof.
  intros P g v H C. assert (V : Tidy done (s_once (s_lazy g)) (p_lazy (fun _ => v))).
  { apply tidy_any_done, once_free; [exact (tidy_lazy H)|exact (c_lazy C)]. }
  assert (Pf : forall A (q : parser N A), Tidy never (s_prim q) q) by (intros; apply tidy_prim).
  assert (S : consumes 1 (b_sep bytes)).
  { eapply c_skip_right with (i := 1) (j := 0); [eapply c_skip_left with (i := 0) (j := 1); [apply c_zero|apply c_b_elm|lia]|apply c_zero|lia]. }
  eapply n_skip_right; [|apply Pf].
  eapply tidy_or_never; [eapply tidy_or_never; [eapply tidy_or_never; [eapply tidy_or_never; [eapply tidy_or_never|]|]|]|]; eapply tidy_once_never; try apply Pf; apply tidy_map.
  - apply o_b_string.
  - eapply n_skip_left; [apply Pf|]. eapply n_skip_right; [|apply Pf]. eapply tidy_rep_sep; [exact V|apply free_prim|exact (c_lazy C)|exact S|]. intros off w n _ _ _ _. now exists n.
  - apply tidy_map. eapply n_skip_left; [apply Pf|]. eapply n_skip_right; [|apply Pf]. eapply tidy_rep_sep with (P := done); [|apply free_prim|apply c_b_member|exact S|intros off w n _ _ _ _; now exists n].
    apply d_and; [|exact V]. repeat (apply d_skip_right; [|apply tidy_prim]). apply tidy_once_done; [apply o_b_string|apply c_b_string].
Qed.
Lemma o_b_value : forall n, Tidy never (h_b_value (@s_once) f64_parse lossy bytes n) (b_value f64_parse lossy bytes n).
Proof. induction n as [|n IH]; [apply tidy_prim|]. eapply o_b_value_step; [exact IH|apply c_b_value]. Qed.
Lemma o_bench : Tidy never (h_bench (@s_once) f64_parse lossy bytes (length inp)) (bench_p f64_parse lossy bytes).
Proof.
  apply tidy_ext with (bench_fuel f64_parse lossy bytes (S (length inp))); [reflexivity|].
  eapply n_skip_right; [eapply n_skip_left; [apply (tidy_prim _ _ never)|]|apply (tidy_prim _ _ never)]. eapply tidy_once_never, o_b_value.
Qed.
End Bench.
