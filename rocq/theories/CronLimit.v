(** The end of chrono's calendar in crond.  Paths are relative to crond/src.  chrono 0.4.38 (crond/Cargo.toml 17;
    there is no lock file) knows the years -262143 to 262142; NaiveDate::from_ymd panics outside of them. *)
From Verif Require Import Base Core Cron Calendar CronSchedule.
Set Implicit Arguments.
Local Open Scope Z_scope.

(** chrono: the years of NaiveDate::MIN and NaiveDate::MAX. *)
Definition year_min : Z := -262143.
Definition year_max : Z := 262142.
(** chrono: NaiveDate::from_ymd, as the number of the day; None is its panic. *)
Definition from_ymd (y : Z) (m d : N) : option Z :=
  if (year_min <=? y) && (y <=? year_max) && (1 <=? m)%N && (m <=? 12)%N && (1 <=? d)%N && (Z.of_N d <=? days_in_month y m)
  then Some (days_from_civil y m d) else None.
(** lib.rs 23-37. *)
Definition get_days_chrono (year : Z) (month : N) : option Z :=
  obind (from_ymd (match month with 12%N => year + 1 | _ => year end) (match month with 12%N => 1%N | _ => (month + 1)%N end) 1) (fun next =>
  obind (from_ymd year month 1) (fun this => Some (next - this))).
(** cron_evaluator.rs 15-40, with that panic. *)
Definition ceval_chrono (now : dtime) (ast : cexpr) : option bool :=
  match ast with
  | Cron mins hours days months day_of_weeks =>
      obind (visit (mk_env (dt_minute now) 59) mins) (fun fmins =>
      obind (visit (mk_env (dt_hour now) 23) hours) (fun fhours =>
      obind (get_days_chrono (dt_year now) (dt_month now)) (fun last_day =>
      obind (visit (mk_env (dt_day now) (Z.to_N last_day)) days) (fun fdays =>
      obind (visit (mk_env (dt_month now) 12) months) (fun fmonths =>
      obind (visit (mk_env (dt_minute now) 7) day_of_weeks) (fun fdows =>
      Some (fmins && fhours && fdays && fmonths && fdows)))))))
  | _ => Some false
  end.
(** cron_specification.rs 21-25 with chrono's Utc. *)
Definition chrono_spec (e : cexpr) (t : Z) : option bool := ceval_chrono (utc t) e.

(** cron_schedule.rs 46-57 and take(n): the first [n] items of an iterator that has this specification. *)
Fixpoint items_chrono (e : cexpr) (tmax : Z) (n : nat) (it : citer) : option (list (option Z)) :=
  match n with
  | O => Some []
  | S n' => match inext (chrono_spec e) tmax None it with
            | IYield it' item => match items_chrono e tmax n' it' with Some items => Some (item :: items) | None => None end
            | _ => None
            end
  end.

(** The first and the last millisecond of chrono's calendar, and the first one of its last December. *)
Definition ms_of_day (d : Z) : Z := (d - 719468) * 86400000.
Definition ms_min : Z := ms_of_day (days_from_civil year_min 1 1).
Definition ms_december : Z := ms_of_day (days_from_civil year_max 12 1).
Definition ms_max : Z := ms_of_day (days_from_civil (year_max + 1) 1 1) - 1.

(** The month of a time, counted from January of year 0, is that of the first days around it. *)
Lemma month_of_time : forall t k, first_day k <= t / 86400000 + 719468 <-> k <= dt_year (utc t) * 12 + Z.of_N (dt_month (utc t)) - 1.
Proof.
  intros t k. unfold utc. pose proof (civil_ok (t / 86400000 + 719468)) as C.
  destruct (civil_from_days (t / 86400000 + 719468)) as [[y m] d]. destruct C as (Hm & Hd & Hl & E).
  cbn [dt_year dt_month]. rewrite <- E. rewrite date_month by assumption. set (k' := y * 12 + Z.of_N m - 1) in *.
  assert (N2 : first_day (k' + 1) = first_day k' + days_in_month y m).
  { rewrite first_day_next. subst k'. replace ((y * 12 + Z.of_N m - 1) / 12) with y by (apply Z.div_unique with (r := Z.of_N m - 1); lia).
    replace ((y * 12 + Z.of_N m - 1) mod 12) with (Z.of_N m - 1) by (apply Z.mod_unique with (q := y); lia).
    now replace (Z.to_N (Z.of_N m - 1 + 1)) with m by lia. }
  split; intros H.
  - destruct (Z.le_gt_cases k k') as [L|L]; [exact L|]. pose proof (@first_day_le (k' + 1) k ltac:(lia)). lia.
  - pose proof (@first_day_le k k' H). lia.
Qed.
Lemma ms_of_first : forall t k, ms_of_day (first_day k) <= t <-> k <= dt_year (utc t) * 12 + Z.of_N (dt_month (utc t)) - 1.
Proof.
  intros t k. rewrite <- month_of_time. unfold ms_of_day. pose proof (Z.div_mod t 86400000 ltac:(lia)). pose proof (Z.mod_pos_bound t 86400000 ltac:(lia)). lia.
Qed.
Lemma utc_month : forall t, (1 <= dt_month (utc t) <= 12)%N.
Proof.
  intros t. unfold utc. pose proof (civil_ok (t / 86400000 + 719468)) as C.
  destruct (civil_from_days (t / 86400000 + 719468)) as [[y m] d]. cbn. tauto.
Qed.
(** The limits in terms of the date. *)
Lemma in_calendar : forall t, ms_min <= t <= ms_max <-> year_min <= dt_year (utc t) <= year_max.
Proof.
  intros t. pose proof (utc_month t) as M. assert (A : ms_min <= t <-> year_min <= dt_year (utc t)).
  { change ms_min with (ms_of_day (first_day (year_min * 12))). rewrite ms_of_first. lia. }
  assert (B : ms_of_day (first_day ((year_max + 1) * 12)) <= t <-> year_max + 1 <= dt_year (utc t)).
  { rewrite ms_of_first. lia. }
  change ms_max with (ms_of_day (first_day ((year_max + 1) * 12)) - 1). lia.
Qed.
Lemma in_december : forall t, t <= ms_max -> (ms_december <= t <-> dt_year (utc t) = year_max /\ dt_month (utc t) = 12%N).
Proof.
  intros t Ht. pose proof (utc_month t) as M.
  assert (B : ms_of_day (first_day ((year_max + 1) * 12)) <= t <-> year_max + 1 <= dt_year (utc t)).
  { rewrite ms_of_first. lia. }
  change ms_max with (ms_of_day (first_day ((year_max + 1) * 12)) - 1) in Ht.
  change ms_december with (ms_of_day (first_day (year_max * 12 + 11))). rewrite ms_of_first. lia.
Qed.
(** The month length is found but in the last December. *)
Lemma get_days_chrono_some : forall y m, (1 <= m <= 12)%N -> year_min <= y <= year_max -> ~ (y = year_max /\ m = 12%N) ->
  get_days_chrono y m = Some (get_days_from_month y m).
Proof.
  intros y m Hm Hy N. assert (F : forall y' m', year_min <= y' <= year_max -> (1 <= m' <= 12)%N -> from_ymd y' m' 1 = Some (days_from_civil y' m' 1)).
  { intros y' m' Hy' Hm'. unfold from_ymd. pose proof (dim_pos y' m').
    repeat match goal with |- context [?a <=? ?b] => replace (a <=? b) with true by (symmetry; apply Z.leb_le; lia) end.
    repeat match goal with |- context [(?a <=? ?b)%N] => replace (a <=? b)%N with true by (symmetry; apply N.leb_le; lia) end. reflexivity. }
  unfold get_days_chrono, get_days_from_month. rewrite (F y m) by lia. destruct (N.eq_dec m 12) as [->|Ne].
  - rewrite F by lia. reflexivity.
  - assert (E1 : match m with 12%N => y + 1 | _ => y end = y).
    { assert (C : (m = 1 \/ m = 2 \/ m = 3 \/ m = 4 \/ m = 5 \/ m = 6 \/ m = 7 \/ m = 8 \/ m = 9 \/ m = 10 \/ m = 11)%N) by lia.
      repeat destruct C as [->|C]; try reflexivity. now subst. }
    assert (E2 : match m with 12%N => 1%N | _ => (m + 1)%N end = (m + 1)%N).
    { assert (C : (m = 1 \/ m = 2 \/ m = 3 \/ m = 4 \/ m = 5 \/ m = 6 \/ m = 7 \/ m = 8 \/ m = 9 \/ m = 10 \/ m = 11)%N) by lia.
      repeat destruct C as [->|C]; try reflexivity. now subst. }
    rewrite E1, E2, F by lia. reflexivity.
Qed.
Lemma get_days_chrono_none : get_days_chrono year_max 12 = None.
Proof. reflexivity. Qed.
