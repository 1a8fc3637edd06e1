(** crond/src/cron_schedule.rs over UTC, and the calendar facts its theorems need.  Paths are relative to crond/src. *)
From Verif Require Import Base Core Cron Calendar.
Set Implicit Arguments.
Local Open Scope Z_scope.

(** cron_schedule.rs 37-42: the Err text is not modelled; a panic or an endless parse is excluded by C35_parse_returns. *)
Definition schedule_new (text : list N) : option cexpr :=
  match cron_parse text with Success e _ => Some e | _ => None end.

(** cron_interval.rs 19-26: DateTime::timestamp_millis; a DateTime<Utc> is here its timestamp in nanoseconds.  The
    milliseconds are rounded towards minus infinity (chrono: timestamp() * 1000 + timestamp_subsec_millis()). *)
Definition timestamp_millis (start_ns : Z) : Z := start_ns / 1000000.

(** cron_specification.rs 21-25 with chrono's Utc. *)
Definition utc_spec (e : cexpr) (t : Z) : option bool := ceval (utc t) e.

(** cron_schedule.rs 46-51 and 55-57, cron_interval.rs 31-43 and 47-51: the interval has no upper limit, and the iterator
    starts at the start value that the interval has kept in milliseconds. *)
Definition upcoming (start_ns : Z) : option citer := interval_iter (Some (timestamp_millis start_ns)).
(** The first [n] items of an iterator, if the n calls return; [tmax] bounds the representable times. *)
Fixpoint items_of (e : cexpr) (tmax : Z) (n : nat) (it : citer) : option (list (option Z)) :=
  match n with
  | O => Some []
  | S n' => match inext (utc_spec e) tmax None it with
            | IYield it' item => match items_of e tmax n' it' with Some items => Some (item :: items) | None => None end
            | _ => None
            end
  end.
(** upcoming(start).take(n). *)
Definition upcoming_items (e : cexpr) (tmax : Z) (start_ns : Z) (n : nat) : option (list (option Z)) :=
  match upcoming start_ns with Some it => items_of e tmax n it | None => None end.

(** *** Calendar facts *)
(** The components are those of the minute in which the time lies. *)
Lemma utc_minute : forall t, utc t = utc (t / 60000 * 60000).
Proof.
  intros t. unfold utc.
  assert (E : t / 60000 * 60000 / 86400000 = t / 86400000).
  { change 86400000 with (60000 * 1440). rewrite <- !Z.div_div by lia. now rewrite Z.div_mul by lia. }
  rewrite E. pose proof (Z.div_mod t 86400000 ltac:(lia)). pose proof (Z.mod_pos_bound t 86400000 ltac:(lia)).
  assert (M : t / 60000 * 60000 mod 86400000 = t mod 86400000 / 60000 * 60000).
  { rewrite !Z.mod_eq, E by lia. replace (t - 86400000 * (t / 86400000)) with (t + (- 1440 * (t / 86400000)) * 60000) by lia.
    rewrite Z.div_add by lia. lia. }
  rewrite M. rewrite Z.div_mul by lia.
  assert (H3 : t mod 86400000 / 60000 * 60000 / 3600000 = t mod 86400000 / 3600000).
  { change 3600000 with (60000 * 60). rewrite <- !Z.div_div by lia. now rewrite Z.div_mul by lia. }
  now rewrite H3.
Qed.
(** The calendar repeats after 400 years, weekdays included. *)
Definition years400 : Z := 146097 * 86400000.
Lemma civil_period : forall z k, civil_from_days (z + k * 146097) = let '(y, m, d) := civil_from_days z in (y + k * 400, m, d).
Proof.
  intros z k. unfold civil_from_days. rewrite Z.div_add, Z.mod_add by lia. cbv zeta. f_equal. f_equal. lia.
Qed.
Lemma utc_period : forall t k, let u := utc t in let v := utc (t + k * years400) in
  dt_year v = dt_year u + k * 400 /\ dt_month v = dt_month u /\ dt_day v = dt_day u /\ dt_hour v = dt_hour u /\
  dt_minute v = dt_minute u /\ dt_weekday v = dt_weekday u.
Proof.
  intros t k. cbv zeta. unfold utc, years400.
  replace (t + k * (146097 * 86400000)) with (t + (k * 146097) * 86400000) by lia.
  rewrite Z.div_add, Z.mod_add by lia.
  replace (t / 86400000 + k * 146097 + 719468) with (t / 86400000 + 719468 + k * 146097) by lia. rewrite civil_period.
  replace (t / 86400000 + k * 146097 + 4) with (t / 86400000 + 4 + (k * 20871) * 7) by lia. rewrite Z.mod_add by lia.
  destruct (civil_from_days (t / 86400000 + 719468)) as [[y m] d]. cbn. repeat split; reflexivity.
Qed.

(** The first days of the months, counted from January of year 0. *)
Definition first_day (k : Z) : Z := days_from_civil (k / 12) (Z.to_N (k mod 12 + 1)) 1.
Lemma first_day_next : forall k, first_day (k + 1) = first_day k + days_in_month (k / 12) (Z.to_N (k mod 12 + 1)).
Proof.
  intros k. unfold first_day. pose proof (Z.mod_pos_bound k 12 ltac:(lia)) as B. pose proof (Z.div_mod k 12 ltac:(lia)) as E.
  rewrite <- get_days_correct by lia. unfold get_days_from_month. destruct (Z.eq_dec (k mod 12) 11) as [E11|Ne].
  - rewrite E11. cbn [Z.add Z.to_N Pos.add Pos.succ]. replace ((k + 1) / 12) with (k / 12 + 1) by (apply Z.div_unique with (r := 0); lia).
    replace ((k + 1) mod 12) with 0 by (apply Z.mod_unique with (q := k / 12 + 1); lia). cbn [Z.add Z.to_N]. change (Z.to_N (11 + 1)) with 12%N. change (Z.to_N (0 + 1)) with 1%N. cbv iota. lia.
  - replace ((k + 1) / 12) with (k / 12) by (apply Z.div_unique with (r := k mod 12 + 1); lia).
    replace ((k + 1) mod 12) with (k mod 12 + 1) by (apply Z.mod_unique with (q := k / 12); lia).
    replace (Z.to_N (k mod 12 + 1 + 1)) with (Z.to_N (k mod 12 + 1) + 1)%N by lia.
    assert (C : k mod 12 = 0 \/ k mod 12 = 1 \/ k mod 12 = 2 \/ k mod 12 = 3 \/ k mod 12 = 4 \/ k mod 12 = 5 \/ k mod 12 = 6 \/ k mod 12 = 7 \/ k mod 12 = 8 \/ k mod 12 = 9 \/ k mod 12 = 10) by lia.
    clear - C. repeat destruct C as [C|C]; rewrite C; match goal with |- context [Z.to_N (?a + 1)] => let v := eval vm_compute in (Z.to_N (a + 1)) in change (Z.to_N (a + 1)) with v end; cbv iota; lia.
Qed.
Lemma dim_pos : forall y m, 0 < days_in_month y m.
Proof. intros y m. unfold days_in_month. repeat match goal with |- context [match ?x with _ => _ end] => destruct x end; lia. Qed.
Lemma first_day_mono : forall k n, first_day k + Z.of_nat n <= first_day (k + Z.of_nat n).
Proof.
  intros k n. induction n as [|n IH]; [rewrite !Z.add_0_r; lia|]. replace (k + Z.of_nat (S n)) with (k + Z.of_nat n + 1) by lia.
  rewrite first_day_next. pose proof (dim_pos ((k + Z.of_nat n) / 12) (Z.to_N ((k + Z.of_nat n) mod 12 + 1))). lia.
Qed.
Lemma first_day_le : forall k l, k <= l -> first_day k <= first_day l.
Proof. intros k l H. pose proof (first_day_mono k (Z.to_nat (l - k))) as M. rewrite Z2Nat.id in M by lia. replace (k + (l - k)) with l in M by lia. lia. Qed.
(** Every valid date is the date of its day number. *)
Lemma date_month : forall y m d, (1 <= m <= 12)%N -> days_from_civil y m d = first_day (y * 12 + Z.of_N m - 1) + Z.of_N d - 1.
Proof.
  intros y m d Hm. unfold first_day. replace ((y * 12 + Z.of_N m - 1) / 12) with y by (apply Z.div_unique with (r := Z.of_N m - 1); lia).
  replace ((y * 12 + Z.of_N m - 1) mod 12) with (Z.of_N m - 1) by (apply Z.mod_unique with (q := y); lia).
  replace (Z.to_N (Z.of_N m - 1 + 1)) with m by lia. unfold days_from_civil. lia.
Qed.
Lemma civil_inverse : forall y m d, (1 <= m <= 12)%N -> (1 <= d)%N -> Z.of_N d <= days_in_month y m ->
  civil_from_days (days_from_civil y m d) = (y, m, d).
Proof.
  intros y m d Hm Hd Hl. pose proof (civil_ok (days_from_civil y m d)) as C.
  destruct (civil_from_days (days_from_civil y m d)) as [[y' m'] d']. destruct C as (Hm' & Hd' & Hl' & E).
  rewrite !date_month in E by assumption.
  set (k := y * 12 + Z.of_N m - 1) in *. set (k' := y' * 12 + Z.of_N m' - 1) in *.
  assert (N1 : first_day (k + 1) = first_day k + days_in_month y m).
  { rewrite first_day_next. subst k. replace ((y * 12 + Z.of_N m - 1) / 12) with y by (apply Z.div_unique with (r := Z.of_N m - 1); lia).
    replace ((y * 12 + Z.of_N m - 1) mod 12) with (Z.of_N m - 1) by (apply Z.mod_unique with (q := y); lia).
    now replace (Z.to_N (Z.of_N m - 1 + 1)) with m by lia. }
  assert (N2 : first_day (k' + 1) = first_day k' + days_in_month y' m').
  { rewrite first_day_next. subst k'. replace ((y' * 12 + Z.of_N m' - 1) / 12) with y' by (apply Z.div_unique with (r := Z.of_N m' - 1); lia).
    replace ((y' * 12 + Z.of_N m' - 1) mod 12) with (Z.of_N m' - 1) by (apply Z.mod_unique with (q := y'); lia).
    now replace (Z.to_N (Z.of_N m' - 1 + 1)) with m' by lia. }
  assert (K : k = k').
  { destruct (Z.lt_trichotomy k k') as [L|[L|L]]; [|exact L|]; exfalso.
    - pose proof (@first_day_le (k + 1) k' ltac:(lia)). lia.
    - pose proof (@first_day_le (k' + 1) k ltac:(lia)). lia. }
  assert (d = d') by (rewrite <- K in E; lia). subst d'. subst k k'. assert (y = y') by lia. subst y'. assert (m = m') by lia. now subst.
Qed.
(** Every valid date and time of day occurs. *)
Lemma utc_onto : forall y m d h mi, (1 <= m <= 12)%N -> (1 <= d)%N -> Z.of_N d <= days_in_month y m -> (h <= 23)%N -> (mi <= 59)%N ->
  exists t, dt_year (utc t) = y /\ dt_month (utc t) = m /\ dt_day (utc t) = d /\ dt_hour (utc t) = h /\ dt_minute (utc t) = mi.
Proof.
  intros y m d h mi Hm Hd Hl Hh Hmi.
  exists ((days_from_civil y m d - 719468) * 86400000 + (Z.of_N h * 3600000 + Z.of_N mi * 60000)). unfold utc.
  rewrite (Z.add_comm _ (Z.of_N h * 3600000 + Z.of_N mi * 60000)). rewrite Z.div_add, Z.mod_add by lia.
  rewrite (Z.div_small (_ + _) 86400000), (Z.mod_small (_ + _) 86400000) by lia.
  replace (0 + (days_from_civil y m d - 719468) + 719468) with (days_from_civil y m d) by lia.
  rewrite (@civil_inverse y m d Hm Hd Hl). cbn [dt_year dt_month dt_day dt_hour dt_minute].
  assert (E1 : (Z.of_N h * 3600000 + Z.of_N mi * 60000) / 3600000 = Z.of_N h).
  { rewrite Z.add_comm, Z.div_add by lia. rewrite Z.div_small by lia. lia. }
  assert (E2 : (Z.of_N h * 3600000 + Z.of_N mi * 60000) / 60000 mod 60 = Z.of_N mi).
  { rewrite Z.div_add by lia. replace (Z.of_N h * 3600000 / 60000) with (Z.of_N h * 60).
    - rewrite Z.add_comm, Z.mod_add by lia. apply Z.mod_small. lia.
    - replace (Z.of_N h * 3600000) with (Z.of_N h * 60 * 60000) by lia. now rewrite Z.div_mul by lia. }
  rewrite E1, E2. repeat split; lia.
Qed.
