(** C91, C92, C93: the cron notation in full, and the schedule from the text to the times. *)
From Verif Require Import PropsD.
From Verif Require Import Base Core Comb Closure Cron CronSpec CronComplete Calendar CronSchedule.
From Coq Require Import Sorting.Sorted.
Set Implicit Arguments.
Local Open Scope string_scope.
Local Open Scope nat_scope.
Local Open Scope list_scope.

(** ** C91 *)
(** Exactly the texts of the notation are accepted, with the expression they denote. *)
Theorem C91_accepts_exactly : forall t e n, cron_parse t = Success e n <-> n = length t /\ cron_text t e.
Proof.
  intros t e n. split.
  - intros H. apply C35_accepted_text in H. tauto.
  - intros [-> H]. now apply cron_complete.
Qed.
(** Every other text is an error. *)
Theorem C91_rejects : forall t, (forall e, ~ cron_text t e) -> exists x c, cron_parse t = Failure x c.
Proof.
  intros t H. destruct (C35_parse_returns t) as [K1 K2]. destruct (cron_parse t) as [e n|x c| |] eqn:E; try congruence; [exfalso|eauto].
  apply C91_accepts_exactly in E. now apply (H e).
Qed.
(** A text denotes at most one expression. *)
Theorem C91_unambiguous : forall t e e', cron_text t e -> cron_text t e' -> e = e'.
Proof. intros t e e' H H'. apply cron_complete in H, H'. congruence. Qed.
Example C91_example : cron_text (bs "5,10-20/5, */2 01 * MON-FRI") (Cron (ListExpr [ValueExpr 5; RangeExpr (ValueExpr 10) (ValueExpr 20) (ValueExpr 5)])
  (PerExpr AnyValueExpr (ValueExpr 2)) (ValueExpr 1) AnyValueExpr (RangeExpr (ValueExpr 2) (ValueExpr 6) NoOp)) /\
  forall e, ~ cron_text (bs "60 * * * *") e.
Proof.
  split; [apply (@C91_accepts_exactly _ _ 27); vm_compute; reflexivity|].
  intros e H. apply cron_complete in H. vm_compute in H. discriminate.
Qed.
Print Assumptions C91_accepts_exactly.
Print Assumptions C91_rejects.
Print Assumptions C91_unambiguous.

(** ** C92 *)
Local Open Scope Z_scope.
(** [n] items from an iterator. *)
Lemma items_take : forall e tmax n it items fuel, items_of e tmax n it = Some items -> (iter_fuel tmax (it_next it) <= fuel)%nat ->
  exists it', take_items (utc_spec e) tmax fuel None n it = Some (items, it').
Proof.
  intros e tmax n. induction n as [|n IH]; intros it items fuel H Hf; [inv H; now exists it|]. cbn [items_of] in H.
  destruct (inext (utc_spec e) tmax None it) as [it1 item| |] eqn:E; try discriminate.
  destruct (items_of e tmax n it1) as [items'|] eqn:E2; [|discriminate]. inv H.
  assert (E1 : inext_fuel (utc_spec e) tmax fuel None it = IYield it1 item).
  { rewrite C41_fuel_irrelevant; [exact E|]. unfold inext, inext_fuel in E |- *. destruct (add_minute tmax (it_next it)) eqn:A; [|discriminate].
    rewrite (@proceed_fuel (utc_spec e) tmax (iter_fuel tmax (it_next it)) fuel); [congruence|congruence|exact Hf]. }
  apply inext_yield in E. destruct E as [(r & -> & -> & ((j & F1) & _) & _)|(x & A & _)]; [|discriminate].
  apply (IH _ _ fuel) in E2.
  - destruct E2 as [it' E2]. exists it'. cbn [take_items]. now rewrite E1, E2.
  - cbn [it_next]. unfold iter_fuel, grid, minute in *. lia.
Qed.

(** The fields of an accepted text are well behaved but for steps 0 in the first two. *)
Lemma text_good : forall text m h d mo w, schedule_new text = Some (Cron m h d mo w) -> ~ zero_step m -> ~ zero_step h ->
  good m /\ good h /\ good d /\ good mo.
Proof.
  intros text m h d mo w Hs Zm Zh.
  unfold schedule_new in Hs. destruct (cron_parse text) as [e len|? ?| |] eqn:P; try discriminate. inv Hs.
  destruct (C36_accepted_shapes _ P) as (m' & h' & d' & mo' & w' & E & S1 & S2 & S3 & S4 & _ & L1 & L2 & L3 & L4). inv E.
  destruct (C35_values_in_range _ P) as (m'' & h'' & d'' & mo'' & w'' & E & _ & _ & W3 & W4 & _). inv E.
  rename m'' into m, h'' into h, d'' into d, mo'' into mo.
  assert (NZ : forall e hi, within 1 hi e -> ~ zero_step e).
  { clear. intros e hi W Z. unfold zero_step in Z. unfold within in W. induction Z as [dg|a b|l x Hx Z IH].
    - cbn in W. rewrite !Forall_app in W. destruct W as [_ W]. inv W. lia.
    - cbn in W. rewrite !Forall_app in W. destruct W as (_ & _ & W). inv W. lia.
    - apply IH. cbn [numbers] in W. rewrite Forall_forall in W |- *. intros y Hy. apply W. apply in_flat_map. eauto. }
  assert (Gm : good m) by (repeat split; assumption). assert (Gh : good h) by (repeat split; assumption).
  assert (Gd : good d) by (repeat split; try assumption; eapply NZ; eassumption).
  assert (Gmo : good mo) by (repeat split; try assumption; eapply NZ; eassumption).
  auto.
Qed.

(** The times of a schedule whose weekday field is "*" and that has no step 0 (C37 and C38 show what happens otherwise) are
    exactly the minutes, from the minute of the start on, whose UTC date and time of day match the text, in order and
    without gaps; each is given at the start's offset within the minute.  Missing from the full statement: the weekday. *)
Theorem C92_upcoming_partial : forall text m h d mo tmax start_ns n items,
  schedule_new text = Some (Cron m h d mo AnyValueExpr) -> ~ zero_step m -> ~ zero_step h ->
  upcoming_items (Cron m h d mo AnyValueExpr) tmax start_ns n = Some items ->
  let ms := start_ns / 1000000 in
  let due k := matches (utc (k * 60000)) m h d mo AnyValueExpr in
  exists ks, items = map (fun k => Some (ms + (k - ms / 60000) * 60000)) ks /\ length ks = n /\ StronglySorted Z.lt ks /\
    (forall k, In k ks -> ms / 60000 <= k /\ due k) /\
    (forall k k', In k' ks -> ms / 60000 <= k <= k' -> due k -> In k ks).
Proof.
  intros text m h d mo tmax start_ns n items Hs Zm Zh H ms due.
  destruct (text_good _ Hs Zm Zh) as (Gm & Gh & Gd & Gmo). clear Hs.
  unfold upcoming_items, upcoming, interval_iter in H. eapply items_take in H; [|apply le_n].
  destruct H as [it' H]. apply C39_iterator_order in H. unfold timestamp_millis in H. fold ms in H.
  destruct H as (ts & -> & Hl & Hso & Hin & Hcl).
  assert (G : forall k, utc (grid ms k) = utc ((ms / 60000 + Z.of_nat k) * 60000)).
  { intros k. rewrite utc_minute. unfold grid, minute. now rewrite Z.div_add by lia. }
  assert (SP : forall t, utc_spec (Cron m h d mo AnyValueExpr) t = Some true <-> matches (utc t) m h d mo AnyValueExpr).
  { intros t. unfold utc_spec. apply (C37_eval_partial (utc_valid t) Gm Gh Gd Gmo). }
  assert (Q : forall t, In t ts -> t = ms + ((t / 60000) - ms / 60000) * 60000 /\ ms / 60000 <= t / 60000).
  { intros t Ht. apply Hin in Ht. destruct Ht as [(k & ->) _]. unfold grid, minute. rewrite Z.div_add by lia. lia. }
  exists (map (fun t => t / 60000) ts). split; [|split; [|split; [|split]]].
  - rewrite map_map. apply map_ext_in. intros t Ht. f_equal. now apply Q.
  - now rewrite map_length.
  - clear - Hso Q. induction Hso as [|t ts Hso IH Hf]; [constructor|]. cbn [map]. constructor; [apply IH; intros u Hu; apply Q; now right|].
    rewrite Forall_forall in Hf |- *. intros k Hk. apply in_map_iff in Hk. destruct Hk as (u & <- & Hu). specialize (Hf u Hu).
    pose proof (Q t (or_introl eq_refl)) as [Q1 _]. pose proof (Q u (or_intror Hu)) as [Q2 _]. lia.
  - intros k H. apply in_map_iff in H. destruct H as (t & <- & Ht). split; [now apply Q|]. unfold due. apply Hin in Ht. destruct Ht as [(j & ->) Ht].
    apply SP in Ht. rewrite G in Ht. unfold grid, minute. rewrite Z.div_add by lia. exact Ht.
  - intros k k' Hk' Hk Hd. apply in_map_iff in Hk'. destruct Hk' as (u & <- & Hu).
    apply in_map_iff. exists (ms + (k - ms / 60000) * 60000). split; [rewrite Z.div_add by lia; lia|].
    assert (Og : ms + (k - ms / 60000) * 60000 = grid ms (Z.to_nat (k - ms / 60000))) by (unfold grid, minute; rewrite Z2Nat.id by lia; lia).
    rewrite Og. apply (Hcl _ u Hu).
    + rewrite <- Og. pose proof (Q u Hu). lia.
    + now eexists.
    + apply SP. rewrite G. rewrite Z2Nat.id by lia. replace (ms / 60000 + (k - ms / 60000)) with k by lia. exact Hd.
Qed.
(** "after the start": full statement: no time is before the start.  False: the interval keeps milliseconds only. *)
Theorem C92_not_before_start_refuted : exists text e tmax start_ns r,
  schedule_new text = Some e /\ upcoming_items e tmax start_ns 1 = Some [Some r] /\ r * 1000000 < start_ns.
Proof.
  exists (bs "* * * * *"). eexists. exists 60005, 1500000, 1. split; [vm_compute; reflexivity|]. split; [|lia].
  vm_compute. reflexivity.
Qed.
(** It never is a millisecond or more before the start, and never before a start that is a whole number of milliseconds. *)
Theorem C92_not_before_start_partial : forall e tmax start_ns n items r, upcoming_items e tmax start_ns n = Some items -> In (Some r) items ->
  start_ns - 1000000 < r * 1000000 /\ (start_ns mod 1000000 = 0 -> start_ns <= r * 1000000).
Proof.
  intros e tmax start_ns n items r H Hr. unfold upcoming_items, upcoming, interval_iter in H.
  eapply items_take in H; [|apply le_n]. destruct H as [it' H].
  apply C39_iterator_order in H. destruct H as (ts & -> & _ & _ & Hin & _). apply in_map_iff in Hr. destruct Hr as (t & E & Ht). inv E.
  apply Hin in Ht. destruct Ht as [(k & ->) _]. unfold grid, minute, timestamp_millis.
  pose proof (Z.div_mod start_ns 1000000 ltac:(lia)). pose proof (Z.mod_pos_bound start_ns 1000000 ltac:(lia)). split; lia.
Qed.
(** From 2021-01-01 01:58:20: 02:00:20 and 02:30:20. *)
Example C92_example :
  let e := Cron (RangeExpr (ValueExpr 0) (ValueExpr 59) (ValueExpr 30)) (RangeExpr (ValueExpr 0) (ValueExpr 23) (ValueExpr 2)) AnyValueExpr AnyValueExpr AnyValueExpr in
  schedule_new (bs "0-59/30 0-23/2 * * *") = Some e /\
  upcoming_items e 1609468280000 1609466300000000000 2 = Some [Some 1609466420000; Some 1609468220000].
Proof. split; vm_compute; reflexivity. Qed.
Print Assumptions C92_upcoming_partial.
Print Assumptions C92_not_before_start_refuted.
Print Assumptions C92_not_before_start_partial.

(** ** C93 *)
(** What the dates and times of day of a schedule are, without reference to any run: some valid date and time of day matches. *)
Definition satisfiable (m h d mo : cexpr) : Prop :=
  exists y mm dd hh mi, (1 <= mm <= 12)%N /\ (1 <= dd)%N /\ Z.of_N dd <= days_in_month y mm /\ (hh <= 23)%N /\ (mi <= 59)%N /\
    field_has 59 m mi /\ field_has 23 h hh /\ field_has (Z.to_N (days_in_month y mm)) d dd /\ field_has 12 mo mm.

Lemma satisfiable_utc : forall m h d mo, satisfiable m h d mo <-> exists t, matches (utc t) m h d mo AnyValueExpr.
Proof.
  intros m h d mo. split.
  - intros (y & mm & dd & hh & mi & H1 & H2 & H3 & H4 & H5 & F1 & F2 & F3 & F4).
    destruct (utc_onto y H1 H2 H3 H4 H5) as (t & E1 & E2 & E3 & E4 & E5). exists t. unfold matches, matches_with. rewrite E1, E2, E3, E4, E5.
    repeat split; try assumption; apply fh_any.
  - intros (t & F1 & F2 & F3 & F4 & _). destruct (utc_valid t) as (V1 & V2 & V3 & V4 & V5 & _).
    exists (dt_year (utc t)), (dt_month (utc t)), (dt_day (utc t)), (dt_hour (utc t)), (dt_minute (utc t)). repeat split; try assumption; apply V1.
Qed.

Section Good.
Variables m h d mo : cexpr.
Hypothesis Gm : good m. Hypothesis Gh : good h. Hypothesis Gd : good d. Hypothesis Gmo : good mo.
Notation e := (Cron m h d mo AnyValueExpr).
Lemma spec_iff : forall t, utc_spec e t = Some true <-> matches (utc t) m h d mo AnyValueExpr.
Proof. intros t. apply (C37_eval_partial (utc_valid t) Gm Gh Gd Gmo). Qed.
Lemma spec_not : forall t, utc_spec e t = Some false <-> ~ matches (utc t) m h d mo AnyValueExpr.
Proof. intros t. apply (C37_eval_partial (utc_valid t) Gm Gh Gd Gmo). Qed.
Lemma spec_some : forall t, utc_spec e t <> None.
Proof.
  intros t E. assert (G : good AnyValueExpr). { split; [apply sf_any|]. split; intros H; inv H. }
  destruct (C37_eval_exact (utc_valid t) Gm Gh Gd Gmo G) as (r & K & _). unfold utc_spec in E. congruence.
Qed.
Lemma spec_period : forall t k, utc_spec e (t + k * years400) = utc_spec e t.
Proof.
  intros t k. pose proof (utc_period t k) as (E1 & E2 & E3 & E4 & E5 & E6).
  assert (M : matches (utc (t + k * years400)) m h d mo AnyValueExpr <-> matches (utc t) m h d mo AnyValueExpr).
  { unfold matches, matches_with. rewrite E1, E2, E3, E4, E5, E6, dim_period. reflexivity. }
  destruct (utc_spec e t) as [[|]|] eqn:E; [| |now apply spec_some in E].
  - apply spec_iff. apply M. now apply spec_iff.
  - apply spec_not. rewrite M. now apply spec_not.
Qed.
Lemma spec_minute : forall t, utc_spec e t = utc_spec e (t / 60000 * 60000).
Proof. intros t. unfold utc_spec. now rewrite <- utc_minute. Qed.
(** From any start a satisfiable schedule is due within 400 years. *)
Lemma due_again : satisfiable m h d mo -> forall b, exists r, first_match (utc_spec e) b r /\ r + minute <= b + years400.
Proof.
  intros Hsat b. apply satisfiable_utc in Hsat. destruct Hsat as [t0 H0]. apply spec_iff in H0.
  set (P := 146097 * 1440). set (M := t0 / 60000). set (B := b / 60000).
  set (j := (M - B) mod P).
  assert (Bj : 0 <= j < P) by (apply Z.mod_pos_bound; reflexivity).
  assert (E : B + j = M + - ((M - B) / P) * P) by (unfold j; pose proof (Z.div_mod (M - B) P ltac:(discriminate)); lia).
  assert (S : utc_spec e (grid b (Z.to_nat j)) = Some true).
  { rewrite spec_minute. unfold grid, minute. rewrite Z2Nat.id by lia. rewrite Z.div_add by lia. fold B. rewrite E.
    rewrite spec_minute in H0. fold M in H0. rewrite <- H0. rewrite <- (spec_period (M * 60000) (- ((M - B) / P))).
    f_equal. unfold years400, P. lia. }
  destruct (@first_match_exists (utc_spec e) b spec_some) as [r Hr]; [exists (grid b (Z.to_nat j)); split; [now eexists|exact S]|].
  exists r. split; [exact Hr|]. destruct Hr as ((k & ->) & _ & Hr).
  assert (L : (k <= Z.to_nat j)%nat).
  { destruct (Nat.le_gt_cases k (Z.to_nat j)) as [L|L]; [exact L|exfalso]. apply (proj2 (grid_lt b _ _)) in L. rewrite (Hr _ (ex_intro _ _ eq_refl) L) in S. discriminate. }
  unfold grid, minute, years400. unfold P in Bj. lia.
Qed.
End Good.

(** A schedule with weekday "*" and no step 0: if some valid date and time of day matches at all, every call of next()
    returns, whatever the start and however many calls, as long as n times 400 years are representable; and it never takes
    more than 400 years to the next time. *)
Theorem C93_satisfiable_returns : forall text m h d mo, schedule_new text = Some (Cron m h d mo AnyValueExpr) ->
  ~ zero_step m -> ~ zero_step h -> satisfiable m h d mo ->
  forall tmax start_ns n, start_ns / 1000000 + Z.of_nat n * years400 <= tmax ->
  exists items, upcoming_items (Cron m h d mo AnyValueExpr) tmax start_ns n = Some items.
Proof.
  intros text m h d mo Hs Zm Zh Hsat tmax start_ns n. destruct (text_good _ Hs Zm Zh) as (Gm & Gh & Gd & Gmo). unfold upcoming_items, upcoming, interval_iter, timestamp_millis.
  generalize (mk_iter (start_ns / 1000000) (start_ns / 1000000)) (eq_refl : start_ns / 1000000 = it_next (mk_iter (start_ns / 1000000) (start_ns / 1000000))).
  generalize (start_ns / 1000000). intros b it. revert b it. induction n as [|n IH]; intros b it -> Ht; [now eexists|]. cbn [items_of].
  destruct (due_again Gm Gh Gd Gmo Hsat (it_next it)) as (r & Hr & Lr).
  assert (T : r + minute <= tmax) by (unfold years400 in *; lia).
  destruct (proj2 (@C41_returns_iff_match (utc_spec (Cron m h d mo AnyValueExpr)) tmax it r)) as [it' E]; [now split|].
  rewrite E. pose proof E as E'. apply inext_yield in E'. destruct E' as [(r' & Q & -> & _)|(x & A & _)]; [|discriminate]. inv Q.
  destruct (IH _ (mk_iter r' (r' + minute)) eq_refl) as [items' ->]; [cbn [it_next]; lia|]. now eexists.
Qed.
(** If none matches, the first call runs to the end of time and panics. *)
Theorem C93_unsatisfiable_panics : forall text m h d mo, schedule_new text = Some (Cron m h d mo AnyValueExpr) ->
  ~ zero_step m -> ~ zero_step h -> ~ satisfiable m h d mo ->
  forall tmax start_ns it, upcoming start_ns = Some it -> inext (utc_spec (Cron m h d mo AnyValueExpr)) tmax None it = IPanic.
Proof.
  intros text m h d mo Hs Zm Zh Hun tmax start_ns it _. destruct (text_good _ Hs Zm Zh) as (Gm & Gh & Gd & Gmo). destruct (inext _ tmax None it) as [it' item| |] eqn:E; [exfalso|reflexivity|now apply C41_inext_ends in E].
  apply inext_yield in E. destruct E as [(r & _ & _ & (_ & Hr & _) & _)|(x & A & _)]; [|discriminate].
  apply Hun. apply satisfiable_utc. exists r. now apply (spec_iff Gm Gh Gd Gmo).
Qed.
(** 29 February is satisfiable (and 8 years may pass), 31 April is not. *)
Example C93_example :
  let any := AnyValueExpr in
  (schedule_new (bs "0 0 29 2 *") = Some (Cron (ValueExpr 0) (ValueExpr 0) (ValueExpr 29) (ValueExpr 2) any) /\
   satisfiable (ValueExpr 0) (ValueExpr 0) (ValueExpr 29) (ValueExpr 2)) /\
  (schedule_new (bs "0 0 31 4 *") = Some (Cron (ValueExpr 0) (ValueExpr 0) (ValueExpr 31) (ValueExpr 4) any) /\
   ~ satisfiable (ValueExpr 0) (ValueExpr 0) (ValueExpr 31) (ValueExpr 4)) /\
  ~ zero_step (ValueExpr 0).
Proof.
  cbv zeta. split; [|split].
  - split; [vm_compute; reflexivity|]. exists 2024, 2%N, 29%N, 0%N, 0%N. repeat split; try discriminate; apply fh_unit, uv_value.
  - split; [vm_compute; reflexivity|]. intros (y & mm & dd & hh & mi & _ & _ & L & _ & _ & _ & _ & F & G).
    inv F; match goal with H : unit_value _ _ _ |- _ => inv H end. inv G; match goal with H : unit_value _ _ _ |- _ => inv H end. vm_compute in L. now apply L.
  - intros H. inv H.
Qed.
Print Assumptions C93_satisfiable_returns.
Print Assumptions C93_unsatisfiable_panics.
