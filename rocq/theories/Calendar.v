(** The Gregorian calendar in UTC (chrono's DateTime<Utc>), used to instantiate the iterator theorems; and the month
    lengths against which crond/src/lib.rs 23-37 is checked. *)
From Verif Require Import Base Cron.
Set Implicit Arguments.
Local Open Scope Z_scope.

(** Month lengths, from the calendar rules. *)
Definition leap (y : Z) : bool := (y mod 4 =? 0) && (negb (y mod 100 =? 0) || (y mod 400 =? 0)).
Definition days_in_month (y : Z) (m : N) : Z :=
  match m with
  | 2%N => if leap y then 29 else 28
  | 4%N | 6%N | 9%N | 11%N => 30
  | _ => 31
  end.

Lemma leap_div : forall y, (y / 4 - y / 100 + y / 400) - ((y - 1) / 4 - (y - 1) / 100 + (y - 1) / 400) =
  if leap y then 1 else 0.
Proof.
  intros y. unfold leap.
  assert (D : forall k, 0 < k -> y / k - (y - 1) / k = if y mod k =? 0 then 1 else 0).
  { intros k Hk. pose proof (Z.div_mod y k ltac:(lia)) as E. pose proof (Z.mod_pos_bound y k Hk) as B.
    destruct (Z.eqb_spec (y mod k) 0) as [E0|E0].
    - rewrite E0 in E. replace ((y - 1) / k) with (y / k - 1); [lia|].
      apply Z.div_unique with (r := k - 1); lia.
    - replace ((y - 1) / k) with (y / k); [lia|]. apply Z.div_unique with (r := y mod k - 1); lia. }
  pose proof (D 4 ltac:(lia)). pose proof (D 100 ltac:(lia)). pose proof (D 400 ltac:(lia)).
  assert (H400 : y mod 400 = 0 -> y mod 100 = 0).
  { intros E. apply Z.mod_divide in E; [|lia]. apply Z.mod_divide; [lia|]. destruct E as [q ->]. exists (4 * q). lia. }
  assert (H100 : y mod 100 = 0 -> y mod 4 = 0).
  { intros E. apply Z.mod_divide in E; [|lia]. apply Z.mod_divide; [lia|]. destruct E as [q ->]. exists (25 * q). lia. }
  destruct (Z.eqb_spec (y mod 4) 0), (Z.eqb_spec (y mod 100) 0), (Z.eqb_spec (y mod 400) 0); cbn [andb orb negb]; lia.
Qed.

Lemma month_cases : forall m : N, (1 <= m <= 12)%N ->
  m = 1%N \/ m = 2%N \/ m = 3%N \/ m = 4%N \/ m = 5%N \/ m = 6%N \/ m = 7%N \/ m = 8%N \/ m = 9%N \/ m = 10%N \/
  m = 11%N \/ m = 12%N.
Proof. lia. Qed.

Lemma get_days_correct : forall y m, (1 <= m <= 12)%N -> get_days_from_month y m = days_in_month y m.
Proof.
  intros y m Hm. unfold get_days_from_month, days_from_civil, days_in_month.
  pose proof (leap_div y) as L.
  pose proof (month_cases Hm) as Hc. clear Hm.
  repeat destruct Hc as [Hc|Hc]; subst m; cbn -[Z.div Z.mul Z.add Z.sub leap];
    try (replace (y + 1 - 1) with y by lia);
    repeat match goal with |- context [(153 * ?a + 2) / 5] => let v := eval vm_compute in ((153 * a + 2) / 5) in change ((153 * a + 2) / 5) with v end;
    try lia.
  destruct (leap y); lia.
Qed.

(** Days since 0000-03-01 to (year, month, day). *)
Definition civil_from_days (z : Z) : Z * N * N :=
  let era := z / 146097 in
  let doe := z mod 146097 in
  let yoe := (doe - doe / 1460 + doe / 36524 - doe / 146096) / 365 in
  let doy := doe - (365 * yoe + yoe / 4 - yoe / 100) in
  let mp := (5 * doy + 2) / 153 in
  let d := doy - (153 * mp + 2) / 5 + 1 in
  let m := if mp <? 10 then mp + 3 else mp - 9 in
  (yoe + era * 400 + (if m <=? 2 then 1 else 0), Z.to_N m, Z.to_N d).
(** Milliseconds since the epoch to date and time of day, as chrono computes it for UTC; day 719468 is 1970-01-01, a
    Thursday. *)
Definition utc (t : Z) : dtime :=
  let days := t / 86400000 + 719468 in
  let ms := t mod 86400000 in
  let '(y, m, d) := civil_from_days days in
  mk_dtime y m d (Z.to_N (ms / 3600000)) (Z.to_N (ms / 60000 mod 60)) (Z.to_N ((t / 86400000 + 4) mod 7 + 1)).

(** One era, checked day by day: valid dates, and days_from_civil is the inverse. *)
Definition day_ok (z : Z) : bool :=
  let '(y, m, d) := civil_from_days z in
  (1 <=? m)%N && (m <=? 12)%N && (1 <=? d)%N && (Z.of_N d <=? days_in_month y m) && (days_from_civil y m d =? z).
Fixpoint all_below (n : nat) (z : Z) : bool :=
  match n with O => true | S n' => day_ok z && all_below n' (z + 1) end.
Lemma all_below_spec : forall n z, all_below n z = true -> forall k, z <= k < z + Z.of_nat n -> day_ok k = true.
Proof.
  induction n as [|n IH]; intros z H k Hk; [lia|]. cbn in H. apply andb_true_iff in H. destruct H as [H1 H2].
  destruct (Z.eq_dec k z) as [->|Hne]; [exact H1|]. apply (IH (z + 1)); [exact H2|lia].
Qed.
Lemma era_ok : forall k, 0 <= k < 146097 -> day_ok k = true.
Proof.
  intros k Hk. apply (@all_below_spec (Z.to_nat 146097) 0); [vm_compute; reflexivity|]. rewrite Z2Nat.id; lia.
Qed.
Lemma leap_period : forall y e, leap (y + e * 400) = leap y.
Proof.
  intros y e. unfold leap.
  replace (y + e * 400) with (y + (e * 100) * 4) at 1 by lia. rewrite Z.mod_add by lia.
  replace (y + e * 400) with (y + (e * 4) * 100) at 1 by lia. rewrite Z.mod_add by lia.
  rewrite Z.mod_add by lia. reflexivity.
Qed.
Lemma dim_period : forall y m e, days_in_month (y + e * 400) m = days_in_month y m.
Proof. intros y m e. unfold days_in_month. now rewrite leap_period. Qed.
Lemma dfc_period : forall y m d e, days_from_civil (y + e * 400) m d = days_from_civil y m d + e * 146097.
Proof.
  intros y m d e. unfold days_from_civil.
  assert (E : forall x, (x + e * 400) / 4 - (x + e * 400) / 100 + (x + e * 400) / 400 = x / 4 - x / 100 + x / 400 + e * 97).
  { intros x. replace (x + e * 400) with (x + (e * 100) * 4) at 1 by lia. rewrite Z.div_add by lia.
    replace (x + e * 400) with (x + (e * 4) * 100) at 1 by lia. rewrite Z.div_add by lia.
    rewrite Z.div_add by lia. lia. }
  destruct (m <=? 2)%N.
  - replace (y + e * 400 - 1) with ((y - 1) + e * 400) by lia. specialize (E (y - 1)). lia.
  - specialize (E y). lia.
Qed.

(** Every day is a valid date and is the day it says. *)
Lemma civil_ok : forall z, let '(y, m, d) := civil_from_days z in
  (1 <= m <= 12)%N /\ (1 <= d)%N /\ Z.of_N d <= days_in_month y m /\ days_from_civil y m d = z.
Proof.
  intros z. pose proof (Z.mod_pos_bound z 146097 ltac:(lia)) as B.
  pose proof (era_ok B) as H. unfold day_ok in H. unfold civil_from_days in *.
  rewrite (Z.mod_small (z mod 146097)) in H by exact B. rewrite (Z.div_small (z mod 146097) 146097) in H by exact B.
  set (doe := z mod 146097) in *.
  set (yoe := (doe - doe / 1460 + doe / 36524 - doe / 146096) / 365) in *.
  set (doy := doe - (365 * yoe + yoe / 4 - yoe / 100)) in *.
  set (mp := (5 * doy + 2) / 153) in *.
  set (m := if mp <? 10 then mp + 3 else mp - 9) in *.
  set (d := doy - (153 * mp + 2) / 5 + 1) in *.
  replace (yoe + z / 146097 * 400 + (if m <=? 2 then 1 else 0))
    with (yoe + 0 * 400 + (if m <=? 2 then 1 else 0) + z / 146097 * 400) by lia.
  rewrite dim_period, dfc_period.
  rewrite !andb_true_iff, !N.leb_le, Z.leb_le, Z.eqb_eq in H. destruct H as [[[[H1 H2] H3] H4] H5].
  repeat split; try assumption. rewrite H5. unfold doe. pose proof (Z.div_mod z 146097 ltac:(lia)). lia.
Qed.
