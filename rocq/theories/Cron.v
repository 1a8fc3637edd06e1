(** crond/src: expression type, grammar, evaluator and interval iterator.  Paths are relative to crond/src. *)
From Verif Require Import Base Core Comb.
Set Implicit Arguments.
Local Open Scope string_scope.
Local Open Scope nat_scope.
Local Open Scope list_scope.

(** ** cron_expr.rs *)
(** cron_expr.rs 2-24.  A u8 is a value of N; [CronExpr::CronExpr] is [Cron]. *)
Inductive cexpr :=
| NoOp
| ValueExpr (n : N)
| LastValueExpr
| AnyValueExpr
| PerExpr (digit option_ : cexpr)
| RangeExpr (from to per_option : cexpr)
| ListExpr (l : list cexpr)
| Cron (mins hours days months day_of_weeks : cexpr).

(** u8 arithmetic with overflow checks (a debug build panics, None). *)
Definition u8_of_char (c : N) : N := (c mod 256)%N.
Definition u8_sub (a b : N) : option N := if (b <=? a)%N then Some (a - b)%N else None.
Definition u8_add (a b : N) : option N := if (a + b <=? 255)%N then Some (a + b)%N else None.
Definition u8_mul (a b : N) : option N := if (a * b <=? 255)%N then Some (a * b)%N else None.
Definition obind {A B} (o : option A) (f : A -> option B) : option B :=
  match o with Some a => f a | None => None end.

(** The closure |e| ValueExpr(e as u8 - 48), e.g. cron_parser.rs 9, 10. *)
Definition digit1 (e : N) : option cexpr := obind (u8_sub (u8_of_char e) 48) (fun v => Some (ValueExpr v)).
(** The closure |(e1, e2)| ValueExpr((e1 as u8 - 48) * 10 + e2 as u8 - 48), e.g. cron_parser.rs 7. *)
Definition digit2 (e : N * N) : option cexpr :=
  obind (u8_sub (u8_of_char (fst e)) 48) (fun a =>
  obind (u8_mul a 10) (fun b =>
  obind (u8_add b (u8_of_char (snd e))) (fun c =>
  obind (u8_sub c 48) (fun v => Some (ValueExpr v))))).

(** ** cron_parser.rs.  [cache()] is left out here: the objects with caches (CacheGrammars.v) parse every input
    as these parsers do (C111_cron). *)

(** 5-12. *)
Definition min_digit : parser N cexpr :=
  p_or (p_or (p_attempt (p_map_panic (p_and (p_elm_in (chr "1") (chr "5")) p_elm_digit) digit2))
             (p_attempt (p_map_panic (p_skip_left (p_elm (chr "0")) p_elm_digit) digit1)))
       (p_map_panic p_elm_digit digit1).

(** 14-24 (debug only logs). *)
Definition hour_digit : parser N cexpr :=
  p_or (p_or (p_or (p_attempt (p_map_panic (p_and (p_elm (chr "2")) (p_elm_in (chr "0") (chr "3"))) digit2))
                   (p_attempt (p_map_panic (p_and (p_elm (chr "1")) p_elm_digit) digit2)))
             (p_attempt (p_map_panic (p_skip_left (p_elm (chr "0")) p_elm_digit) digit1)))
       (p_log_map (p_map_panic p_elm_digit digit1) (fun _ => tt)).

(** 26-36. *)
Definition day_digit : parser N cexpr :=
  p_or (p_or (p_or (p_attempt (p_map_panic (p_and (p_elm (chr "3")) (p_elm_of (bs "01"))) digit2))
                   (p_attempt (p_map_panic (p_and (p_elm_of (bs "12")) p_elm_digit) digit2)))
             (p_attempt (p_map_panic (p_skip_left (p_elm (chr "0")) p_elm_digit_1_9) digit1)))
       (p_map_panic p_elm_digit_1_9 digit1).

(** 38-45. *)
Definition month_digit : parser N cexpr :=
  p_or (p_or (p_attempt (p_map_panic (p_and (p_elm (chr "1")) (p_elm_of (bs "012"))) digit2))
             (p_attempt (p_map_panic (p_skip_left (p_elm (chr "0")) p_elm_digit_1_9) digit1)))
       (p_map_panic p_elm_digit_1_9 digit1).

(** 47-57. *)
Definition day_of_week_digit : parser N cexpr :=
  let day name n := p_attempt (p_map (p_tag (bs name)) (fun _ => ValueExpr n)) in
  p_or (p_or (p_or (p_or (p_or (p_or (p_or (day "SUN" 1%N) (day "MON" 2%N)) (day "TUE" 3%N)) (day "WED" 4%N))
                         (day "THU" 5%N)) (day "FRI" 6%N)) (day "SAT" 7%N))
       (p_map (p_elm (chr "L")) (fun _ => LastValueExpr)).

(** 59-61. *)
Definition day_of_week_text : parser N cexpr := p_map_panic (p_elm_in (chr "1") (chr "7")) digit1.

(** 63-65. *)
Definition asterisk : parser N cexpr := p_map (p_elm (chr "*")) (fun _ => AnyValueExpr).
(** 67-69. *)
Definition per (p : parser N cexpr) : parser N cexpr := p_skip_left (p_elm (chr "/")) p.
(** 71-79. *)
Definition asterisk_per (p : parser N cexpr) : parser N cexpr :=
  p_attempt (p_map (p_and asterisk (per p)) (fun x => PerExpr (fst x) (snd x))).
(** 81-86. *)
Definition range_per (p : parser N cexpr) : parser N cexpr :=
  p_map (p_opt (per p)) (fun e => match e with None => NoOp | Some s => s end).
(** 88-95. *)
Definition clist (p : parser N cexpr) : parser N cexpr :=
  p_attempt (p_map (p_many1_sep p (p_elm (chr ","))) (fun e => match e with [x] => x | _ => ListExpr e end)).
(** 97-107. *)
Definition crange (x : parser N cexpr) : parser N cexpr :=
  p_attempt (p_map (p_and (p_and (p_skip_right x (p_elm (chr "-"))) x) (range_per x))
    (fun e => RangeExpr (fst (fst e)) (snd (fst e)) (snd e))).
(** 109-113. *)
Definition digit_instruction (x : parser N cexpr) : parser N cexpr :=
  p_or (p_or (clist (p_or (crange x) x)) (asterisk_per x)) asterisk.

(** The parser passed to the fifth field, 121. *)
Definition dow : parser N cexpr := p_or day_of_week_text day_of_week_digit.

(** 115-129. *)
Definition instruction : parser N cexpr :=
  let sp := p_elm (chr " ") in
  p_map
    (p_and (p_skip_right (p_and (p_skip_right (p_and (p_skip_right (p_and (p_skip_right
      (digit_instruction min_digit) sp) (digit_instruction hour_digit)) sp)
      (digit_instruction day_digit)) sp) (digit_instruction month_digit)) sp)
      (digit_instruction dow))
    (fun '((((mins, hours), days), months), day_of_weeks) => Cron mins hours days months day_of_weeks).

(** 134-138: the outcome of (instruction() - end()).parse; the Err text is not modelled. *)
Definition cron_parse (input : list N) : outcome N cexpr := parse (p_skip_right instruction p_end) input.

(** ** cron_environment.rs 1-10 *)
Record cenv := mk_env { env_now : N; env_max : N }.

(** (a..=b).step_by(k) for k <> 0, as the list of yielded values (std::iter::StepBy over RangeInclusive<usize>). *)
Fixpoint step_iter (fuel : nat) (cur b k : N) : list N :=
  match fuel with
  | O => []
  | S fuel' => if (cur <=? b)%N then cur :: step_iter fuel' (cur + k)%N b k else []
  end.
Definition step_range (a b k : N) : list N := step_iter (S (N.to_nat (b - a))) a b k.
(** step_by panics on 0 (None); then any(|e| e == now). *)
Definition step_any (a b k now : N) : option bool :=
  if (k =? 0)%N then None else Some (existsb (fun e => (e =? now)%N) (step_range a b k)).

(** cron_evaluator.rs 47: Iterator::any with a closure that may panic: stops at the first true. *)
Fixpoint any_panic {A} (f : A -> option bool) (l : list A) : option bool :=
  match l with
  | [] => Some false
  | x :: l' => match f x with
               | None => None
               | Some true => Some true
               | Some false => any_panic f l'
               end
  end.

(** cron_evaluator.rs 42-69; None is a panic.  The guards of the first three arms fall through to [_ => false]. *)
Fixpoint visit (env : cenv) (ast : cexpr) {struct ast} : option bool :=
  match ast with
  | AnyValueExpr => Some true
  | LastValueExpr => Some (N.eqb (env_now env) (env_max env))
  | ValueExpr n => Some (N.eqb (env_now env) n)
  | ListExpr l =>
      (fix any (l : list cexpr) : option bool :=
         match l with
         | [] => Some false
         | x :: l' => match visit env x with
                      | None => None
                      | Some true => Some true
                      | Some false => any l'
                      end
         end) l
  | RangeExpr (ValueExpr start) (ValueExpr end_) per_option =>
      match per_option with
      | NoOp => Some ((start <=? env_now env)%N && (env_now env <=? end_)%N)
      | ValueExpr per => step_any start end_ per (env_now env)
      | _ => Some false
      end
  | PerExpr AnyValueExpr (ValueExpr per) => step_any 0 (env_max env) per (env_now env)
  | _ => Some false
  end.

(** The components of a DateTime<Tz> used by the evaluator (chrono's Datelike/Timelike); weekday counts SUN=1..SAT=7 and
    is not read by the code. *)
Record dtime := mk_dtime { dt_year : Z; dt_month : N; dt_day : N; dt_hour : N; dt_minute : N; dt_weekday : N }.

(** Days since 0000-03-01 of the proleptic Gregorian calendar (chrono's NaiveDate): the difference of two results is
    NaiveDate::signed_duration_since in days. *)
Definition days_from_civil (y : Z) (m : N) (d : N) : Z :=
  (let y' := if (m <=? 2)%N then y - 1 else y in
   let mp := if (m <=? 2)%N then Z.of_N m + 9 else Z.of_N m - 3 in
   365 * y' + y' / 4 - y' / 100 + y' / 400 + (153 * mp + 2) / 5 + Z.of_N d - 1)%Z.
(** lib.rs 23-37. *)
Definition get_days_from_month (year : Z) (month : N) : Z :=
  (days_from_civil (match month with 12%N => year + 1 | _ => year end)
                   (match month with 12%N => 1%N | _ => (month + 1)%N end) 1
   - days_from_civil year month 1)%Z.

(** cron_evaluator.rs 15-40: all five fields are visited before the conjunction. *)
Definition ceval (now : dtime) (ast : cexpr) : option bool :=
  match ast with
  | Cron mins hours days months day_of_weeks =>
      let last_day := Z.to_N (get_days_from_month (dt_year now) (dt_month now)) in
      obind (visit (mk_env (dt_minute now) 59) mins) (fun fmins =>
      obind (visit (mk_env (dt_hour now) 23) hours) (fun fhours =>
      obind (visit (mk_env (dt_day now) last_day) days) (fun fdays =>
      obind (visit (mk_env (dt_month now) 12) months) (fun fmonths =>
      obind (visit (mk_env (dt_minute now) 7) day_of_weeks) (fun fdows =>
      Some (fmins && fhours && fdays && fmonths && fdows))))))
  | _ => Some false
  end.

(** ** cron_interval.rs and cron_interval_iterator.rs.
    A DateTime<Tz> is its timestamp in milliseconds (Z); [spec] is Specification::is_satisfied_by (None: panic) and
    [tmax] the largest representable time: adding a minute beyond it panics (chrono). *)
Section Iter.
Variable spec : Z -> option bool.
Variable tmax : Z.
Definition minute : Z := 60000%Z.

(** self.next.clone() + Duration::minutes(1). *)
Definition add_minute (t : Z) : option Z := if (t + minute <=? tmax)%Z then Some (t + minute)%Z else None.

(** cron_interval_iterator.rs 11-16, the two mutable fields. *)
Record citer := mk_iter { it_curr : Z; it_next : Z }.
(** Result of a call of next (cron_interval_iterator.rs 34-53): the new iterator and the item, a panic, or no return. *)
Inductive iresult := IYield (it : citer) (item : option Z) | IPanic | IDiverge.

(** 79-84, the while loop with fuel. *)
Fixpoint proceed_next (fuel : nat) (it : citer) : iresult :=
  match fuel with
  | O => IDiverge
  | S fuel' =>
      match spec (it_curr it) with
      | None => IPanic
      | Some true => IYield it (Some (it_curr it))
      | Some false =>
          match add_minute (it_next it) with
          | None => IPanic
          | Some n => proceed_next fuel' (mk_iter (it_next it) n)
          end
      end
  end.

(** 34-53, with end_value (69-77) as an argument. *)
Definition inext_fuel (fuel : nat) (end_ : option Z) (it : citer) : iresult :=
  match add_minute (it_next it) with
  | None => IPanic
  | Some n =>
      let it' := mk_iter (it_next it) n in
      match end_ with
      | None => proceed_next fuel it'
      | Some e => if (it_curr it' <=? e)%Z then proceed_next fuel it' else IYield it' None
      end
  end.
(** The loop runs at most once per representable minute. *)
Definition iter_fuel (t : Z) : nat := S (S (Z.to_nat (tmax - t))).
Definition inext (end_ : option Z) (it : citer) : iresult := inext_fuel (iter_fuel (it_next it)) end_ it.

(** cron_interval.rs 47-51: LimitValue::Limitless (None) as start makes as_value().unwrap() panic. *)
Definition interval_iter (start : option Z) : option citer :=
  match start with Some t => Some (mk_iter t t) | None => None end.

(** n calls of next(): the items, or None when some call does not return. *)
Fixpoint take_items (fuel : nat) (end_ : option Z) (n : nat) (it : citer) : option (list (option Z) * citer) :=
  match n with
  | O => Some ([], it)
  | S n' => match inext_fuel fuel end_ it with
            | IYield it' item => match take_items fuel end_ n' it' with
                                 | Some (items, it'') => Some (item :: items, it'')
                                 | None => None
                                 end
            | _ => None
            end
  end.
End Iter.
