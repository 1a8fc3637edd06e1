(** The unit tests of crond/src, run on the model (tests, not proofs). *)
From Verif Require Import Base Core Comb Cron Calendar CronSchedule TestsParser.
Set Implicit Arguments.
Local Open Scope string_scope.
Local Open Scope nat_scope.
Local Open Scope list_scope.
Local Ltac run := repeat split; vm_compute; reflexivity.
(** ** crond/src *)
Local Open Scope N_scope.
Definition all_any := Cron AnyValueExpr AnyValueExpr AnyValueExpr AnyValueExpr AnyValueExpr.
(** 2021-01-01 01:01:01 UTC, in milliseconds. *)
Definition t0 : Z := ((days_from_civil 2021 1 1 - days_from_civil 1970 1 1) * 86400000 + 3661000)%Z.
(** cron_evaluator.rs 84-96, 99-111, 114-121 *)
Example test_evaluator :
  ceval (utc t0) all_any = Some true /\
  ceval (utc t0) (Cron (ValueExpr 1) (ValueExpr 1) (ValueExpr 1) (ValueExpr 1) AnyValueExpr) = Some true /\
  match success (cron_parse (bs "* * * * *")) with Some e => ceval (utc t0) e | None => None end = Some true.
Proof. run. Qed.
(** cron_parser.rs 158-185 *)
Example test_instruction :
  success (cron_parse (bs "* * * * *")) = Some all_any /\
  success (cron_parse (bs "1 1 1 1 1")) =
    Some (Cron (ValueExpr 1) (ValueExpr 1) (ValueExpr 1) (ValueExpr 1) (ValueExpr 1)).
Proof. run. Qed.
(** 188-248 *)
Example test_digit_instruction :
  let p := p_skip_right (digit_instruction min_digit) p_end in
  unwrap p (bs "*") = Some AnyValueExpr /\ unwrap p (bs "*/2") = Some (PerExpr AnyValueExpr (ValueExpr 2)) /\
  unwrap p (bs "1-10/2") = Some (RangeExpr (ValueExpr 1) (ValueExpr 10) (ValueExpr 2)) /\
  unwrap p (bs "1,2,3") = Some (ListExpr [ValueExpr 1; ValueExpr 2; ValueExpr 3]) /\
  unwrap p (bs "1") = Some (ValueExpr 1).
Proof. run. Qed.
(** [n] in decimal, and format!("{:<02}", n): the flag 0 pads with zeros in front whatever the alignment. *)
Definition one (n : N) : list N := if n <? 10 then [48 + n] else [48 + n / 10; 48 + n mod 10].
Definition two (n : N) : list N := [48 + n / 10; 48 + n mod 10].
Definition upto (a : N) (n : nat) : list N := map (fun i => a + N.of_nat i) (seq 0 n).
(** 251-257 *)
Example test_list :
  unwrap (p_skip_right (clist min_digit) p_end)
    (tl (flat_map (fun n => 44 :: one n) (upto 0 60))) = Some (ListExpr (map ValueExpr (upto 0 60))).
Proof. run. Qed.
(** 260-277 *)
Example test_range :
  forallb (fun n2 => match unwrap (p_skip_right (crange min_digit) p_end)
                                  (two (n2 - 1) ++ bs "-" ++ two n2 ++ bs "/" ++ two (n2 / 2)) with
                     | Some (RangeExpr (ValueExpr a) (ValueExpr b) (ValueExpr c)) =>
                         (a =? n2 - 1) && (b =? n2) && (c =? n2 / 2)
                     | _ => false
                     end) (upto 1 59) = true.
Proof. run. Qed.
(** 280-301 *)
Example test_asterisk_per :
  map (fun n => unwrap (p_skip_right (asterisk_per min_digit) p_end) (bs "*/" ++ two n)) (upto 0 59)
    = map (fun n => Some (PerExpr AnyValueExpr (ValueExpr n))) (upto 0 59) /\
  unwrap (p_skip_right (per min_digit) p_end) (bs "/2") = Some (ValueExpr 2).
Proof. run. Qed.
(** 304-371 *)
Example test_digits :
  map (fun n => unwrap (p_skip_right min_digit p_end) (two n)) (upto 0 59) = map (fun n => Some (ValueExpr n)) (upto 0 59) /\
  is_err (p_skip_right min_digit p_end) (bs "60") = true /\
  map (fun n => unwrap (p_skip_right hour_digit p_end) (one n)) (upto 0 24) = map (fun n => Some (ValueExpr n)) (upto 0 24) /\
  map (fun n => unwrap (p_skip_right hour_digit p_end) (two n)) (upto 0 24) = map (fun n => Some (ValueExpr n)) (upto 0 24) /\
  is_err (p_skip_right hour_digit p_end) (bs "24") = true /\
  map (fun n => unwrap (p_skip_right day_digit p_end) (one n)) (upto 1 31) = map (fun n => Some (ValueExpr n)) (upto 1 31) /\
  map (fun n => unwrap (p_skip_right day_digit p_end) (two n)) (upto 1 31) = map (fun n => Some (ValueExpr n)) (upto 1 31) /\
  is_err (p_skip_right day_digit p_end) (bs "32") = true /\
  map (fun n => unwrap (p_skip_right month_digit p_end) (one n)) (upto 1 12) = map (fun n => Some (ValueExpr n)) (upto 1 12) /\
  map (fun n => unwrap (p_skip_right month_digit p_end) (two n)) (upto 1 12) = map (fun n => Some (ValueExpr n)) (upto 1 12) /\
  is_err (p_skip_right month_digit p_end) (bs "13") = true.
Proof. run. Qed.
(** cron_schedule.rs 66-83 *)
Definition at_ (h m : Z) : Z := ((days_from_civil 2021 1 1 - days_from_civil 1970 1 1) * 86400000 + h * 3600000 + m * 60000)%Z.
Example test_iterator :
  match schedule_new (bs "0-59/30 0-23/2 * * *") with
  | Some e => upcoming_items e (at_ 24 0) (at_ 1 1 * 1000000) 5
  | None => None
  end = Some [Some (at_ 2 0); Some (at_ 2 30); Some (at_ 4 0); Some (at_ 4 30); Some (at_ 6 0)].
Proof. run. Qed.
