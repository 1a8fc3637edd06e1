(** The lines the cron parser writes to the log: cron_parser.rs as in Cron.v, over the combinators of Log.v.  Of the parsers only the last
    alternative of hour_digit has a debug.  The caches are left out; within one parse none of them is asked twice for the same place, as every use
    of a parser in the grammar is an object of its own (the macros repeat their argument). *)
From Verif Require Import Base Core Comb Closure RepFacts LitFacts Runs Cron CronSpec CronComplete Log.
Set Implicit Arguments.
Local Open Scope string_scope.
Local Open Scope nat_scope.
Local Open Scope list_scope.

Section Cron.
(** The text of the derived Debug of ParseResult (core/parse_result.rs 5-21). *)
Variable show : outcome N cexpr -> list N.

(** cron_parser.rs 5-12. *)
Definition wc_min_digit : wparser cexpr :=
  w_or (w_or (w_attempt (w_map_panic (w_and (w_leaf (p_elm_in (chr "1") (chr "5"))) (w_leaf p_elm_digit)) digit2))
             (w_attempt (w_map_panic (w_skip_left (w_leaf (p_elm (chr "0"))) (w_leaf p_elm_digit)) digit1)))
       (w_map_panic (w_leaf p_elm_digit) digit1).
(** cron_parser.rs 14-24. *)
Definition wc_hour_digit : wparser cexpr :=
  w_or (w_or (w_or (w_attempt (w_map_panic (w_and (w_leaf (p_elm (chr "2"))) (w_leaf (p_elm_in (chr "0") (chr "3")))) digit2))
                   (w_attempt (w_map_panic (w_and (w_leaf (p_elm (chr "1"))) (w_leaf p_elm_digit)) digit2)))
             (w_attempt (w_map_panic (w_skip_left (w_leaf (p_elm (chr "0"))) (w_leaf p_elm_digit)) digit1)))
       (w_log_map (w_map_panic (w_leaf p_elm_digit) digit1) (bs "hour_digit_4") LDebug show).
(** cron_parser.rs 26-36. *)
Definition wc_day_digit : wparser cexpr :=
  w_or (w_or (w_or (w_attempt (w_map_panic (w_and (w_leaf (p_elm (chr "3"))) (w_leaf (p_elm_of (bs "01")))) digit2))
                   (w_attempt (w_map_panic (w_and (w_leaf (p_elm_of (bs "12"))) (w_leaf p_elm_digit)) digit2)))
             (w_attempt (w_map_panic (w_skip_left (w_leaf (p_elm (chr "0"))) (w_leaf p_elm_digit_1_9)) digit1)))
       (w_map_panic (w_leaf p_elm_digit_1_9) digit1).
(** cron_parser.rs 38-45. *)
Definition wc_month_digit : wparser cexpr :=
  w_or (w_or (w_attempt (w_map_panic (w_and (w_leaf (p_elm (chr "1"))) (w_leaf (p_elm_of (bs "012")))) digit2))
             (w_attempt (w_map_panic (w_skip_left (w_leaf (p_elm (chr "0"))) (w_leaf p_elm_digit_1_9)) digit1)))
       (w_map_panic (w_leaf p_elm_digit_1_9) digit1).
(** cron_parser.rs 47-57. *)
Definition wc_day_of_week_digit : wparser cexpr :=
  let day name n := w_attempt (w_map (w_leaf (p_tag (bs name))) (fun _ => ValueExpr n)) in
  w_or (w_or (w_or (w_or (w_or (w_or (w_or (day "SUN" 1%N) (day "MON" 2%N)) (day "TUE" 3%N)) (day "WED" 4%N))
                         (day "THU" 5%N)) (day "FRI" 6%N)) (day "SAT" 7%N))
       (w_map (w_leaf (p_elm (chr "L"))) (fun _ => LastValueExpr)).
(** cron_parser.rs 59-61. *)
Definition wc_day_of_week_text : wparser cexpr := w_map_panic (w_leaf (p_elm_in (chr "1") (chr "7"))) digit1.
(** cron_parser.rs 63-65, 67-69, 71-79, 81-86, 88-95. *)
Definition wc_asterisk : wparser cexpr := w_map (w_leaf (p_elm (chr "*"))) (fun _ => AnyValueExpr).
Definition wc_per (p : wparser cexpr) : wparser cexpr := w_skip_left (w_leaf (p_elm (chr "/"))) p.
Definition wc_asterisk_per (p : wparser cexpr) : wparser cexpr :=
  w_attempt (w_map (w_and wc_asterisk (wc_per p)) (fun x => PerExpr (fst x) (snd x))).
Definition wc_range_per (p : wparser cexpr) : wparser cexpr :=
  w_map (w_opt (wc_per p)) (fun e => match e with None => NoOp | Some s => s end).
Definition wc_list (p : wparser cexpr) : wparser cexpr :=
  w_attempt (w_map (w_many1_sep p (w_leaf (p_elm (chr ",")))) (fun e => match e with [x] => x | _ => ListExpr e end)).
(** cron_parser.rs 97-107, 109-113. *)
Definition wc_range (x : wparser cexpr) : wparser cexpr :=
  w_attempt (w_map (w_and (w_and (w_skip_right x (w_leaf (p_elm (chr "-")))) x) (wc_range_per x))
    (fun e => RangeExpr (fst (fst e)) (snd (fst e)) (snd e))).
Definition wc_digit_instruction (x : wparser cexpr) : wparser cexpr :=
  w_or (w_or (wc_list (w_or (wc_range x) x)) (wc_asterisk_per x)) wc_asterisk.
(** cron_parser.rs 121. *)
Definition wc_dow : wparser cexpr := w_or wc_day_of_week_text wc_day_of_week_digit.
(** cron_parser.rs 115-129. *)
Definition wc_instruction : wparser cexpr :=
  let sp := w_leaf (p_elm (chr " ")) in
  w_map
    (w_and (w_skip_right (w_and (w_skip_right (w_and (w_skip_right (w_and (w_skip_right
      (wc_digit_instruction wc_min_digit) sp) (wc_digit_instruction wc_hour_digit)) sp)
      (wc_digit_instruction wc_day_digit)) sp) (wc_digit_instruction wc_month_digit)) sp)
      (wc_digit_instruction wc_dow))
    (fun '((((mins, hours), days), months), day_of_weeks) => Cron mins hours days months day_of_weeks).
(** cron_parser.rs 134-138. *)
Definition wc_cron : wparser cexpr := w_skip_right wc_instruction (w_leaf p_end).

(** ** The outcomes are those of Cron.v *)
Ltac we := repeat first [assumption | apply we_log_map | apply we_map_panic | apply we_attempt | apply we_and | apply we_skip_left | apply we_skip_right | apply we_or | apply we_opt
  | apply we_many1_sep | apply we_leaf | apply we_map].
Lemma we_min : werases wc_min_digit min_digit.
Proof. unfold wc_min_digit, min_digit. we. Qed.
Lemma we_hour : werases wc_hour_digit hour_digit.
Proof. unfold wc_hour_digit, hour_digit. we. Qed.
Lemma we_day : werases wc_day_digit day_digit.
Proof. unfold wc_day_digit, day_digit. we. Qed.
Lemma we_month : werases wc_month_digit month_digit.
Proof. unfold wc_month_digit, month_digit. we. Qed.
Lemma we_dow : werases wc_dow dow.
Proof. unfold wc_dow, dow, wc_day_of_week_text, day_of_week_text, wc_day_of_week_digit, day_of_week_digit. cbv zeta. we. Qed.
Lemma we_per : forall g p, werases g p -> werases (wc_per g) (per p).
Proof. intros g p H. unfold wc_per, per. we. Qed.
Lemma we_range : forall g p, werases g p -> werases (wc_range g) (crange p).
Proof. intros g p H. unfold wc_range, crange, wc_range_per, range_per, wc_per, per. we. Qed.
Lemma we_item : forall g p, werases g p -> werases (w_or (wc_range g) g) (p_or (crange p) p).
Proof. intros g p H. apply we_or; [now apply we_range|exact H]. Qed.
Lemma we_list : forall g p, werases g p -> werases (wc_list (w_or (wc_range g) g)) (clist (p_or (crange p) p)).
Proof. intros g p H. pose proof (we_item H). unfold wc_list, clist. we. Qed.
Lemma we_asterisk : werases wc_asterisk asterisk.
Proof. unfold wc_asterisk, asterisk. we. Qed.
Lemma we_asterisk_per : forall g p, werases g p -> werases (wc_asterisk_per g) (asterisk_per p).
Proof. intros g p H. pose proof (we_per H). pose proof we_asterisk. unfold wc_asterisk_per, asterisk_per. we. Qed.
Lemma we_digit_instruction : forall g p, werases g p -> werases (wc_digit_instruction g) (digit_instruction p).
Proof. intros g p H. apply we_or; [apply we_or; [now apply we_list|now apply we_asterisk_per]|apply we_asterisk]. Qed.
Lemma we_cron : werases wc_cron (p_skip_right instruction p_end).
Proof.
  pose proof (we_digit_instruction we_min). pose proof (we_digit_instruction we_hour). pose proof (we_digit_instruction we_day). pose proof (we_digit_instruction we_month). pose proof (we_digit_instruction we_dow).
  unfold wc_cron, wc_instruction, instruction. cbv zeta. we.
Qed.

(** ** Only the hours write *)
Ltac mu := repeat first [assumption | apply mu_leaf | apply mu_opt | apply mu_or | apply mu_many1_sep | apply mu_two | apply mu_one].
Lemma mu_min : mute wc_min_digit.
Proof. unfold wc_min_digit. mu. Qed.
Lemma mu_day : mute wc_day_digit.
Proof. unfold wc_day_digit. mu. Qed.
Lemma mu_month : mute wc_month_digit.
Proof. unfold wc_month_digit. mu. Qed.
Lemma mu_dow : mute wc_dow.
Proof. unfold wc_dow, wc_day_of_week_text, wc_day_of_week_digit. cbv zeta. mu. Qed.
Lemma mu_digit_instruction : forall g, mute g -> mute (wc_digit_instruction g).
Proof. intros g H. unfold wc_digit_instruction, wc_list, wc_range, wc_range_per, wc_asterisk_per, wc_asterisk, wc_per. mu. Qed.

(** The line written when a single digit is tried at a place. *)
Definition hour_line (inp : list N) (pos : nat) : line :=
  Line LDebug (bs "hour_digit_4 = " ++ show (p_map_panic p_elm_digit digit1 inp pos)).

Definition first3 : parser N cexpr :=
  p_or (p_or (p_attempt (p_map_panic (p_and (p_elm (chr "2")) (p_elm_in (chr "0") (chr "3"))) digit2))
             (p_attempt (p_map_panic (p_and (p_elm (chr "1")) p_elm_digit) digit2)))
       (p_attempt (p_map_panic (p_skip_left (p_elm (chr "0")) p_elm_digit) digit1)).
Definition wfirst3 : wparser cexpr :=
  w_or (w_or (w_attempt (w_map_panic (w_and (w_leaf (p_elm (chr "2"))) (w_leaf (p_elm_in (chr "0") (chr "3")))) digit2))
             (w_attempt (w_map_panic (w_and (w_leaf (p_elm (chr "1"))) (w_leaf p_elm_digit)) digit2)))
       (w_attempt (w_map_panic (w_skip_left (w_leaf (p_elm (chr "0"))) (w_leaf p_elm_digit)) digit1)).
Lemma we_first3 : werases wfirst3 first3.
Proof. unfold wfirst3, first3. we. Qed.
Lemma mu_first3 : mute wfirst3.
Proof. unfold wfirst3. mu. Qed.
Lemma s_fourth : forall l, (forall pre, p_map_panic p_elm_digit digit1 (pre ++ l) (length pre) <> Panic) ->
  (forall pre, p_map_panic p_elm_digit digit1 (pre ++ l) (length pre) <> Diverge) ->
  says hour_line (w_log_map (w_map_panic (w_leaf p_elm_digit) digit1) (bs "hour_digit_4") LDebug show) l [0].
Proof.
  intros l H1 H2 pre. specialize (H1 pre). specialize (H2 pre). unfold w_log_map, w_map_panic, w_one, w_leaf, hour_line. cbn [map]. rewrite Nat.add_0_r.
  change (p_map_panic (fun _ _ => p_elm_digit (pre ++ l) (length pre)) digit1 (pre ++ l) (length pre)) with (p_map_panic p_elm_digit digit1 (pre ++ l) (length pre)).
  destruct (p_map_panic p_elm_digit digit1 (pre ++ l) (length pre)) as [v n|e c| |]; try congruence; reflexivity.
Qed.
(** A single digit is tried exactly if the first three alternatives fail. *)
Lemma s_hour_one : forall l, rej first3 l false -> (exists s rest v, l = s ++ rest /\ acc (p_map_panic p_elm_digit digit1) s rest v) \/ rej (p_map_panic p_elm_digit digit1) l false ->
  says hour_line wc_hour_digit l [0].
Proof.
  intros l H K. change ([0]) with ([] ++ [0]). eapply s_or2; [exact we_first3|exact H|apply s_mute, mu_first3|].
  apply s_fourth; intros pre; (destruct K as [(s & rest & v & -> & K)|K]; [rewrite (K pre); discriminate|destruct (K pre) as [e ->]; discriminate]).
Qed.
Lemma s_hour_two : forall s rest v, acc first3 s rest v -> says hour_line wc_hour_digit (s ++ rest) [].
Proof. intros s rest v H. eapply s_or1; [exact we_first3|exact H|apply s_mute, mu_first3]. Qed.

(** Where single digits are tried within a unit, an item, the rest of a list, a field. *)
Definition unit_tries (s : list N) : list nat := if length s =? 1 then [0] else [].
Lemma s_unit : forall s e rest, num_unit 0 23 s e -> starts after_unit rest -> says hour_line wc_hour_digit (s ++ rest) (unit_tries s).
Proof.
  intros s e rest (n & -> & R & D) Hr. apply after_not in Hr. destruct D as [d Hd|a b Ha Hb].
  - change (unit_tries [48 + d]%N) with [0]. apply s_hour_one; [|left; exists [48 + d]%N, rest, (ValueExpr d); split; [reflexivity|]].
    + unfold first3. enum d Hd; cbn [app]; nos Hr.
    + enum d Hd; yes.
  - change (unit_tries [48 + a; 48 + b]%N) with (@nil nat). apply s_hour_two with (v := ValueExpr (10 * a + b)). unfold first3. enum a Ha; enum b Hb; first [exfalso; lia|alts Hr].
Qed.
Lemma s_nounit : forall l, starts not_unit l -> says hour_line wc_hour_digit l [0].
Proof. intros l Hr. apply s_hour_one; [unfold first3; nos Hr|right; no Hr]. Qed.

(** The tries of an item: a lone unit is read twice, as the start of a range and by itself. *)
Inductive item_tries : list N -> list nat -> Prop :=
| tr_unit : forall s e, num_unit 0 23 s e -> item_tries s (unit_tries s ++ unit_tries s)
| tr_range : forall s a t b, num_unit 0 23 s a -> num_unit 0 23 t b -> item_tries (s ++ bs "-" ++ t) (unit_tries s ++ map (Nat.add (length s + 1)) (unit_tries t))
| tr_step : forall s a t b u c, num_unit 0 23 s a -> num_unit 0 23 t b -> num_unit 0 23 u c ->
    item_tries (s ++ bs "-" ++ t ++ bs "/" ++ u) (unit_tries s ++ map (Nat.add (length s + 1)) (unit_tries t) ++ map (Nat.add (length s + 1 + length t + 1)) (unit_tries u)).
Inductive more_tries : list N -> list nat -> Prop :=
| tm_nil : more_tries [] []
| tm_comma : more_tries (bs ",") [1; 1]
| tm_cons : forall s ps t qs, item_tries s ps -> more_tries t qs -> more_tries (bs "," ++ s ++ t) (map S ps ++ map (Nat.add (1 + length s)) qs).
Inductive field_tries : list N -> list nat -> Prop :=
| tf_list : forall s ps t qs, item_tries s ps -> more_tries t qs -> field_tries (s ++ t) (ps ++ map (Nat.add (length s)) qs)
| tf_per : forall s e, num_unit 0 23 s e -> field_tries (bs "*/" ++ s) ([0; 0] ++ map (Nat.add 2) (unit_tries s))
| tf_any : field_tries (bs "*") [0; 0].

Lemma item_tries_text : forall s ps, item_tries s ps -> exists e, item_text (num_unit 0 23) s e.
Proof. intros s ps H. destruct H; eexists; econstructor; eassumption. Qed.
Lemma item_text_tries : forall s e, item_text (num_unit 0 23) s e -> exists ps, item_tries s ps.
Proof. intros s e H. destruct H; eexists; econstructor; eassumption. Qed.
Lemma more_text_tries : forall s es, more_text (num_unit 0 23) s es -> exists ps, more_tries s ps.
Proof.
  intros s es H. induction H as [| |s e t es H1 H2 [qs IH]]; [eexists; constructor|eexists; constructor|]. destruct (item_text_tries H1) as [ps K]. eexists. constructor; eassumption.
Qed.
Lemma more_tries_text : forall s ps, more_tries s ps -> exists es, more_text (num_unit 0 23) s es.
Proof.
  intros s es H. induction H as [| |s ps t qs H1 H2 [es IH]]; [eexists; constructor|eexists; constructor|]. destruct (item_tries_text H1) as [e K]. eexists. constructor; eassumption.
Qed.
Lemma field_text_tries : forall s e, field_text (num_unit 0 23) s e -> exists ps, field_tries s ps.
Proof.
  intros s e H. destruct H as [s e t H1 H2|s e t e' es H1 H2|s e H1|].
  - destruct (item_text_tries H1) as [ps K]. destruct (more_text_tries H2) as [qs L]. eexists. constructor; eassumption.
  - destruct (item_text_tries H1) as [ps K]. destruct (more_text_tries H2) as [qs L]. eexists. constructor; eassumption.
  - eexists. eapply tf_per. eassumption.
  - eexists. apply tf_any.
Qed.

Notation item := (w_or (wc_range wc_hour_digit) wc_hour_digit).
Notation pitem := (p_or (crange hour_digit) hour_digit).
Notation start := (w_skip_right wc_hour_digit (w_leaf (p_elm (chr "-")))).
Notation pstart := (p_skip_right hour_digit (p_elm (chr "-"))).
Lemma we_start : werases start pstart.
Proof. pose proof we_hour. we. Qed.
Lemma a_start : forall s a t, num_unit 0 23 s a -> acc pstart (s ++ bs "-") t a.
Proof. intros s a t H. eapply a_skip_right; [apply a_hour; [exact H|cbn; unfold after_unit; tauto]|apply a_elm]. Qed.
Lemma s_start : forall s a t, num_unit 0 23 s a -> says hour_line start ((s ++ bs "-") ++ t) (unit_tries s).
Proof.
  intros s a t H. rewrite <- (app_nil_r (unit_tries s)). change (@nil nat) with (map (Nat.add (length s)) []). rewrite <- app_assoc.
  eapply s_two; [exact we_hour|apply a_hour; [exact H|cbn; unfold after_unit; tauto]|eapply s_unit; [exact H|cbn; unfold after_unit; tauto]|apply s_mute, mu_leaf].
Qed.
Lemma a_both : forall s a t b rest, num_unit 0 23 s a -> num_unit 0 23 t b -> starts after_unit rest -> acc (p_and pstart hour_digit) ((s ++ bs "-") ++ t) rest (a, b).
Proof. intros s a t b rest Ha Hb Hu. apply a_and; [now apply a_start|now apply a_hour]. Qed.
Lemma s_both : forall s a t b rest, num_unit 0 23 s a -> num_unit 0 23 t b -> starts after_unit rest ->
  says hour_line (w_and start wc_hour_digit) (((s ++ bs "-") ++ t) ++ rest) (unit_tries s ++ map (Nat.add (length s + 1)) (unit_tries t)).
Proof.
  intros s a t b rest Ha Hb Hu. rewrite <- app_assoc. replace (length s + 1) with (length (s ++ bs "-")) by (rewrite app_length; reflexivity).
  eapply s_two; [exact we_start|apply (a_start (t ++ rest) Ha)|apply (s_start (t ++ rest) Ha)|now apply s_unit with (e := b)].
Qed.
Lemma s_range_per0 : forall rest, starts (fun y => y <> chr "/") rest -> says hour_line (wc_range_per wc_hour_digit) rest [].
Proof.
  intros rest H. unfold wc_range_per. apply s_one. eapply s_opt2; [apply we_per, we_hour|apply (@r_per hour_digit); exact H|].
  unfold wc_per. eapply s_two_no; [apply we_leaf|apply r_elm; now destruct rest|apply s_mute, mu_leaf].
Qed.
Lemma s_per : forall u c rest, num_unit 0 23 u c -> starts after_unit rest -> says hour_line (wc_per wc_hour_digit) (bs "/" ++ u ++ rest) (map (Nat.add 1) (unit_tries u)).
Proof.
  intros u c rest Hc Hu. unfold wc_per. change (map (Nat.add 1) (unit_tries u)) with ([] ++ map (Nat.add (length (bs "/"))) (unit_tries u)).
  eapply s_two; [apply we_leaf|apply a_elm|apply s_mute, mu_leaf|now apply s_unit with (e := c)].
Qed.
Lemma s_range_per1 : forall u c rest, num_unit 0 23 u c -> starts after_unit rest ->
  says hour_line (wc_range_per wc_hour_digit) ((bs "/" ++ u) ++ rest) (map (Nat.add 1) (unit_tries u)).
Proof.
  intros u c rest Hc Hu. unfold wc_range_per. apply s_one. eapply s_opt1; [apply we_per, we_hour|eapply a_per; [exact a_hour|exact Hc|exact Hu]|].
  rewrite <- app_assoc. now apply s_per with (c := c).
Qed.
Lemma a_range_per0 : forall rest, starts (fun y => y <> chr "/") rest -> acc (range_per hour_digit) [] rest NoOp.
Proof. intros rest H. unfold range_per. eapply a_map_eq; [eapply a_opt_none; apply (@r_per hour_digit); exact H|reflexivity]. Qed.
Lemma a_range_per1 : forall u c rest, num_unit 0 23 u c -> starts after_unit rest -> acc (range_per hour_digit) (bs "/" ++ u) rest c.
Proof. intros u c rest Hc Hu. unfold range_per. eapply a_map_eq; [apply a_opt; eapply a_per; [exact a_hour|exact Hc|exact Hu]|reflexivity]. Qed.
Lemma we_both : werases (w_and start wc_hour_digit) (p_and pstart hour_digit).
Proof. apply we_and; [exact we_start|exact we_hour]. Qed.

Lemma s_item : forall s ps rest, item_tries s ps -> starts after_item rest -> says hour_line item (s ++ rest) ps.
Proof.
  intros s ps rest H Hr. assert (Hu : starts after_unit rest) by (eapply starts_imp; [|exact Hr]; cbv [after_item after_unit]; tauto).
  assert (Hs : starts (fun y => y <> chr "/") rest) by (eapply starts_imp; [|exact Hr]; intros y [->| ->]; discriminate).
  destruct H as [s e H|s a t b Ha Hb|s a t b u c Ha Hb Hc].
  - assert (R : rej pstart (s ++ rest) false).
    { eapply r_skip_right2; [apply (@a_hour _ _ _ H Hu)|]. apply r_elm. destruct rest; [exact I|]. destruct Hr as [->| ->]; discriminate. }
    eapply s_or2; [apply we_range, we_hour| | |now apply s_unit with (e := e)].
    + unfold crange. eapply r_attempt. apply r_map. apply r_and1. apply r_and1. exact R.
    + unfold wc_range. apply s_one, s_one.
      eapply s_two_no; [exact we_both|apply r_and1, R|]. eapply s_two_no; [exact we_start|exact R|].
      rewrite <- (app_nil_r (unit_tries s)). change (@nil nat) with (map (Nat.add (length s)) []).
      eapply s_two; [exact we_hour|apply (@a_hour _ _ _ H Hu)|now apply s_unit with (e := e)|apply s_mute, mu_leaf].
  - replace (s ++ bs "-" ++ t) with (((s ++ bs "-") ++ t) ++ []) by (now rewrite app_nil_r, <- app_assoc).
    eapply s_or1; [apply we_range, we_hour|unfold crange; apply a_attempt; eapply a_map; eapply a_and; [eapply a_both; [exact Ha|exact Hb|exact Hu]|now apply a_range_per0]|].
    unfold wc_range. apply s_one, s_one. rewrite <- app_assoc.
    rewrite <- (app_nil_r (unit_tries s ++ _)). change (@nil nat) with (map (Nat.add (length ((s ++ bs "-") ++ t))) []).
    eapply s_two; [exact we_both|eapply a_both; [exact Ha|exact Hb|exact Hu]|eapply s_both; [exact Ha|exact Hb|exact Hu]|now apply s_range_per0].
  - assert (Hv : starts after_unit ((bs "/" ++ u) ++ rest)) by (cbn; unfold after_unit; tauto).
    replace (s ++ bs "-" ++ t ++ bs "/" ++ u) with (((s ++ bs "-") ++ t) ++ (bs "/" ++ u)) by (now rewrite <- !app_assoc).
    eapply s_or1; [apply we_range, we_hour|unfold crange; apply a_attempt; eapply a_map; eapply a_and; [eapply a_both; [exact Ha|exact Hb|exact Hv]|now apply a_range_per1 with (c := c)]|].
    unfold wc_range. apply s_one, s_one. rewrite <- (app_assoc ((s ++ bs "-") ++ t) (bs "/" ++ u) rest), (app_assoc (unit_tries s)).
    replace (map (Nat.add (length s + 1 + length t + 1)) (unit_tries u)) with (map (Nat.add (length ((s ++ bs "-") ++ t))) (map (Nat.add 1) (unit_tries u))).
    + eapply s_two; [exact we_both|eapply a_both; [exact Ha|exact Hb|exact Hv]|eapply s_both; [exact Ha|exact Hb|exact Hv]|now apply s_range_per1 with (c := c)].
    + rewrite map_map. apply map_ext. intros i. rewrite !app_length. change (length (bs "-")) with 1. lia.
Qed.
Lemma r_range_no : forall l, starts not_unit l -> rej pstart l false.
Proof. intros l H. apply r_skip_right1. now apply r_hour. Qed.
(** Where no unit stands, a digit is tried twice. *)
Lemma s_noitem : forall l, starts not_unit l -> says hour_line item l [0; 0].
Proof.
  intros l H. change [0; 0] with ([0] ++ [0]). eapply s_or2; [apply we_range, we_hour| | |now apply s_nounit].
  - unfold crange. eapply r_attempt. apply r_map. apply r_and1. apply r_and1. now apply r_range_no.
  - unfold wc_range. apply s_one, s_one. eapply s_two_no; [exact we_both|apply r_and1; now apply r_range_no|].
    eapply s_two_no; [exact we_start|now apply r_range_no|]. eapply s_two_no; [exact we_hour|now apply r_hour|now apply s_nounit].
Qed.
Lemma told_more : forall t qs rest, more_tries t qs -> starts after_field rest ->
  told hour_line item pitem (w_leaf (p_elm (chr ","))) (p_elm (chr ",")) t rest qs.
Proof.
  intros t qs rest H Hr. induction H as [| |s ps t qs Hs Ht IH].
  - eapply td_end with (c := false). apply r_elm. destruct rest; [exact I|]. cbn in Hr. rewrite Hr. discriminate.
  - change [1; 1] with (map (Nat.add (length (bs ","))) [0; 0]). eapply td_dangling with (c := false); [apply a_elm| |].
    + eapply r_item; [exact r_hour|]. eapply starts_imp; [|exact Hr]. unfold after_field, not_unit, after_unit. tauto.
    + apply s_noitem. eapply starts_imp; [|exact Hr]. unfold after_field, not_unit, after_unit. tauto.
  - destruct (more_tries_text Ht) as [es Et]. destruct (item_tries_text Hs) as [e Es].
    assert (K : starts after_item (t ++ rest)) by (eapply more_starts; eauto).
    change (map S ps) with (map (Nat.add (length (bs ","))) ps). change (1 + length s) with (length (bs ",") + length s).
    eapply td_cons; [apply a_elm|eapply a_item; [exact a_hour|exact Es|exact K]|discriminate|now apply s_item|exact IH].
Qed.
Lemma s_field : forall s ps rest, field_tries s ps -> starts after_field rest -> says hour_line (wc_digit_instruction wc_hour_digit) (s ++ rest) ps.
Proof.
  intros s ps rest H Hr. assert (Hu : starts after_unit rest) by (eapply starts_imp; [|exact Hr]; unfold after_field, after_unit; tauto).
  assert (C : forall l, rej (clist pitem) (chr "*" :: l) false).
  { intros l. unfold clist. eapply r_attempt. apply r_map. eapply r_many1_sep. eapply r_item; [exact r_hour|]. right. reflexivity. }
  assert (D : forall l, says hour_line (wc_list item) (chr "*" :: l) [0; 0]).
  { intros l. unfold wc_list. apply s_one, s_one. eapply s_many1_sep_no; [apply we_item, we_hour|eapply r_item; [exact r_hour|right; reflexivity]|apply s_noitem; right; reflexivity]. }
  assert (M : mute wc_asterisk) by (unfold wc_asterisk; mu).
  unfold wc_digit_instruction. destruct H as [s ps t qs Hs Ht|s e He|].
  - destruct (more_tries_text Ht) as [es Et]. destruct (item_tries_text Hs) as [e Es].
    assert (K : starts after_item (t ++ rest)) by (eapply more_starts; eauto).
    assert (A : acc (clist pitem) (s ++ t) rest (match e :: es with [x] => x | _ => ListExpr (e :: es) end)).
    { unfold clist. apply a_attempt. eapply a_map_eq; [eapply a_items; [exact a_hour|exact r_hour|exact Es|exact Et|exact Hr]|reflexivity]. }
    eapply s_or1; [apply we_or; [apply we_list, we_hour|apply we_asterisk_per, we_hour]|apply a_or1, A|].
    eapply s_or1; [apply we_list, we_hour|exact A|]. unfold wc_list. apply s_one, s_one. rewrite <- app_assoc.
    eapply s_many1_sep; [apply we_item, we_hour|apply we_leaf|apply mu_leaf|eapply a_item; [exact a_hour|exact Es|exact K]|now apply s_item|now apply told_more].
  - assert (A : acc (asterisk_per hour_digit) (bs "*/" ++ s) rest (PerExpr AnyValueExpr e)).
    { unfold asterisk_per. apply a_attempt. eapply a_map_eq with (v := (AnyValueExpr, e)); [|reflexivity].
      change (bs "*/" ++ s) with (bs "*" ++ (bs "/" ++ s)). eapply a_and; [|eapply a_per; [exact a_hour|exact He|exact Hu]]. unfold asterisk. eapply a_map_eq; [apply a_elm|reflexivity]. }
    eapply s_or1; [apply we_or; [apply we_list, we_hour|apply we_asterisk_per, we_hour]|apply a_or2; [apply C|exact A]|].
    eapply s_or2; [apply we_list, we_hour|apply C|apply D|]. unfold wc_asterisk_per. apply s_one, s_one.
    replace (map (Nat.add 2) (unit_tries s)) with ([] ++ map (Nat.add (length (bs "*"))) (map (Nat.add 1) (unit_tries s))) by (cbn [app]; rewrite map_map; reflexivity).
    change ((bs "*/" ++ s) ++ rest) with (bs "*" ++ (bs "/" ++ s ++ rest)).
    eapply s_two; [exact we_asterisk|unfold asterisk; eapply a_map; apply a_elm|now apply s_mute|now apply s_per with (c := e)].
  - assert (P : rej (asterisk_per hour_digit) (bs "*" ++ rest) false).
    { unfold asterisk_per. eapply r_attempt. apply r_map. eapply r_and2; [unfold asterisk; apply a_map; apply a_elm|].
      apply (@r_per hour_digit). eapply starts_imp; [|exact Hr]. intros y ->. discriminate. }
    change [0; 0] with (([0; 0] ++ []) ++ []).
    eapply s_or2; [apply we_or; [apply we_list, we_hour|apply we_asterisk_per, we_hour]|apply r_or; [apply C|exact P]| |now apply s_mute].
    eapply s_or2; [apply we_list, we_hour|apply C|apply D|]. unfold wc_asterisk_per. apply s_one, s_one.
    change (@nil nat) with ([] ++ map (Nat.add (length (bs "*"))) []).
    eapply s_two; [exact we_asterisk|unfold asterisk; eapply a_map; apply a_elm|now apply s_mute|].
    unfold wc_per. eapply s_two_no; [apply we_leaf|apply r_elm|apply s_mute, mu_leaf]. destruct rest; [exact I|]. cbn in Hr. rewrite Hr. discriminate.
Qed.

(** A text with fields of its own and the places of its hours. *)
Inductive cron_tries : list N -> list nat -> Prop :=
| tc : forall s1 e1 s2 ps s3 e3 s4 e4 s5 e5,
    field_text (num_unit 0 59) s1 e1 -> field_tries s2 ps -> field_text (num_unit 1 31) s3 e3 ->
    field_text (num_unit 1 12) s4 e4 -> field_text dow_unit s5 e5 ->
    cron_tries (s1 ++ bs " " ++ s2 ++ bs " " ++ s3 ++ bs " " ++ s4 ++ bs " " ++ s5) (map (Nat.add (length s1 + 1)) ps).
Lemma field_tries_text : forall s ps, field_tries s ps -> exists e, field_text (num_unit 0 23) s e.
Proof.
  intros s ps H. destruct H as [s ps t qs H1 H2|s e H1|].
  - destruct (item_tries_text H1) as [e K]. destruct (more_tries_text H2) as [[|e' es] L]; eexists; [eapply ft_one|eapply ft_list]; eassumption.
  - eexists. eapply ft_per. eassumption.
  - eexists. apply ft_any.
Qed.
Lemma cron_text_tries : forall t e, cron_text t e -> exists ps, cron_tries t ps.
Proof. intros t e H. destruct H. destruct (field_text_tries H0) as [ps K]. eexists. econstructor; eassumption. Qed.
Lemma cron_tries_text : forall t ps, cron_tries t ps -> exists e, cron_text t e.
Proof. intros t ps H. destruct H. destruct (field_tries_text H0) as [e K]. eexists. econstructor; eassumption. Qed.

Lemma s_cron : forall t ps, cron_tries t ps -> says hour_line wc_cron t ps.
Proof.
  intros t ps H. destruct (cron_tries_text H) as [e Ht]. pose proof (a_instruction Ht) as Ha.
  assert (F : forall x (U : list N -> cexpr -> Prop) s e rest, (forall s e rest, U s e -> starts after_unit rest -> acc x s rest e) ->
    (forall l, starts not_unit l -> rej x l false) -> field_text U s e -> acc (digit_instruction x) s (bs " " ++ rest) e).
  { intros x U s e' rest Hx Hr Hf. eapply a_field; [exact Hx|exact Hr|exact Hf|reflexivity]. }
  unfold wc_cron. rewrite <- (app_nil_r t). rewrite <- (app_nil_r ps). change (@nil nat) with (map (Nat.add (length t)) []).
  eapply s_two; [|exact Ha| |apply s_mute, mu_leaf].
  { pose proof (we_digit_instruction we_min). pose proof (we_digit_instruction we_hour). pose proof (we_digit_instruction we_day). pose proof (we_digit_instruction we_month). pose proof (we_digit_instruction we_dow).
    unfold wc_instruction, instruction. cbv zeta. we. }
  rewrite app_nil_r. destruct H as [s1 e1 s2 ps s3 e3 s4 e4 s5 e5 H1 H2 H3 H4 H5]. destruct (field_tries_text H2) as [e2 H2'].
  unfold wc_instruction. cbv zeta. apply s_one.
  set (W1 := wc_digit_instruction wc_min_digit). set (W2 := wc_digit_instruction wc_hour_digit). set (SP := w_leaf (p_elm (chr " "))).
  assert (E1 : werases W1 (digit_instruction min_digit)) by apply (we_digit_instruction we_min).
  assert (E2 : werases W2 (digit_instruction hour_digit)) by apply (we_digit_instruction we_hour).
  assert (A1 : forall r, acc (digit_instruction min_digit) s1 (bs " " ++ r) e1) by (intros r; eapply F; [exact a_min|exact r_min|exact H1]).
  assert (A2 : forall r, acc (digit_instruction hour_digit) s2 (bs " " ++ r) e2) by (intros r; eapply F; [exact a_hour|exact r_hour|exact H2']).
  assert (B1 : forall r, acc (p_skip_right (digit_instruction min_digit) (p_elm (chr " "))) (s1 ++ bs " ") r e1) by (intros r; eapply a_skip_right; [apply A1|apply a_elm]).
  assert (B2 : forall r, acc (p_and (p_skip_right (digit_instruction min_digit) (p_elm (chr " "))) (digit_instruction hour_digit)) ((s1 ++ bs " ") ++ s2) (bs " " ++ r) (e1, e2)).
  { intros r. apply a_and; [apply B1|apply A2]. }
  assert (M1 : mute (w_skip_right W1 SP)) by (unfold W1, SP; apply mu_two; [apply mu_digit_instruction, mu_min|apply mu_leaf]).
  (* the part up to the hours *)
  assert (S2 : forall r, says hour_line (w_and (w_skip_right W1 SP) W2) (((s1 ++ bs " ") ++ s2) ++ bs " " ++ r) (map (Nat.add (length s1 + 1)) ps)).
  { intros r. rewrite <- app_assoc. replace (length s1 + 1) with (length (s1 ++ bs " ")) by (rewrite app_length; reflexivity).
    change (map (Nat.add (length (s1 ++ bs " "))) ps) with ([] ++ map (Nat.add (length (s1 ++ bs " "))) ps).
    eapply s_two; [apply we_skip_right; [exact E1|apply we_leaf]|apply B1|now apply s_mute|apply s_field; [exact H2|reflexivity]]. }
  (* behind it nothing is written *)
  assert (Q : forall A B C (k : parser N A -> parser N B -> parser N C) (g : wparser A) (h : wparser B) l qs, mute h -> says hour_line g l qs -> says hour_line (w_two k g h) l qs).
  { intros A B C k g h l qs Hm Hs pre. specialize (Hs pre). unfold w_two. destruct (g _ _) as [[x n|er c| |] w]; cbn [snd] in *; try assumption.
    specialize (Hm (pre ++ l) (length pre + n)). destruct (h _ _) as [o2 w2]. cbn [snd] in *. subst w2. now rewrite app_nil_r. }
  replace (s1 ++ bs " " ++ s2 ++ bs " " ++ s3 ++ bs " " ++ s4 ++ bs " " ++ s5) with (((s1 ++ bs " ") ++ s2) ++ bs " " ++ s3 ++ bs " " ++ s4 ++ bs " " ++ s5)
    by (now rewrite <- !app_assoc).
  pose proof mu_day. pose proof mu_month. pose proof mu_dow.
  apply Q; [now apply mu_digit_instruction|]. apply Q; [apply mu_leaf|]. apply Q; [now apply mu_digit_instruction|]. apply Q; [apply mu_leaf|].
  apply Q; [now apply mu_digit_instruction|]. apply Q; [apply mu_leaf|]. apply S2.
Qed.
End Cron.
