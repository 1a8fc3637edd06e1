(** C106: the end of chrono's calendar in crond. *)
From Verif Require Import PropsD PropsM.
From Verif Require Import Base Core Comb Closure Cron CronSpec CronComplete Calendar CronSchedule CronLimit.
Set Implicit Arguments.
Local Open Scope string_scope.
Local Open Scope nat_scope.
Local Open Scope list_scope.

(** ** C106 *)
Local Open Scope Z_scope.
Lemma accepted_cron : forall txt e n, cron_parse txt = Success e n -> exists m h d mo w, e = Cron m h d mo w.
Proof. intros txt e n P. destruct (C36_accepted_shapes _ P) as (m & h & d & mo & w & E & _). eauto 6. Qed.
(** Full statement: an accepted expression without a step 0 can be evaluated at every time of chrono's calendar.  False:
    every accepted expression panics in all of the calendar's last December, because the length of a month is found from the
    first day of the next one. *)
Theorem C106_last_december_panics : forall txt e n t, cron_parse txt = Success e n -> ms_min <= t <= ms_max ->
  dt_year (utc t) = year_max -> dt_month (utc t) = 12%N -> chrono_spec e t = None.
Proof.
  intros txt e n t P Ht Hy Hm. destruct (accepted_cron _ P) as (m & h & d & mo & w & ->). unfold chrono_spec, ceval_chrono.
  rewrite Hy, Hm, get_days_chrono_none. destruct (visit _ m); [|reflexivity]. destruct (visit _ h); reflexivity.
Qed.
Theorem C106_eval_returns_refuted : exists txt e t, cron_parse txt = Success e (length txt) /\ ms_min <= t <= ms_max /\
  (forall u, ceval u e <> None) /\ chrono_spec e t = None.
Proof.
  exists (bs "* * * * *"). eexists. exists ms_max. split; [vm_compute; reflexivity|]. split; [split; vm_compute; discriminate|].
  split; [intros u; cbn; discriminate|vm_compute; reflexivity].
Qed.
(** At every other time of the calendar the limit changes nothing. *)
Theorem C106_eval_elsewhere_partial : forall e t, ms_min <= t <= ms_max -> ~ (dt_year (utc t) = year_max /\ dt_month (utc t) = 12%N) ->
  chrono_spec e t = utc_spec e t.
Proof.
  intros e t Ht N. apply in_calendar in Ht. unfold chrono_spec, utc_spec, ceval_chrono, ceval. destruct e; try reflexivity.
  rewrite (get_days_chrono_some (utc_month t) Ht N). destruct (visit _ e1); [|reflexivity]. destruct (visit _ e2); reflexivity.
Qed.
Lemma spec_before : forall e t, ms_min <= t < ms_december -> chrono_spec e t = utc_spec e t.
Proof.
  intros e t Ht. assert (L : t <= ms_max) by (assert (ms_december <= ms_max) by (vm_compute; discriminate); lia).
  apply C106_eval_elsewhere_partial; [lia|]. intros D. apply (in_december L) in D. lia.
Qed.
Lemma spec_after : forall m h d mo w t, ms_december <= t <= ms_max -> chrono_spec (Cron m h d mo w) t = None.
Proof.
  intros m h d mo w t Ht. assert (D := proj1 (@in_december t ltac:(lia)) ltac:(lia)). destruct D as [Hy Hm]. unfold chrono_spec, ceval_chrono.
  rewrite Hy, Hm, get_days_chrono_none. destruct (visit _ m); [|reflexivity]. destruct (visit _ h); reflexivity.
Qed.
Lemma proceed_chrono : forall m h d mo w fuel c, let e := Cron m h d mo w in ms_min <= c -> c + minute <= ms_max ->
  proceed_next (utc_spec e) ms_max fuel (mk_iter c (c + minute)) <> IDiverge ->
  proceed_next (chrono_spec e) ms_max fuel (mk_iter c (c + minute)) =
  match proceed_next (utc_spec e) ms_max fuel (mk_iter c (c + minute)) with
  | IYield it' (Some r) => if r <? ms_december then IYield it' (Some r) else IPanic
  | _ => IPanic
  end.
Proof.
  intros m h d mo w fuel. induction fuel as [|fuel IH]; intros c e Hc Hm N; [now cbn in N|].
  destruct (Z.lt_ge_cases c ms_december) as [L|L].
  - cbn [proceed_next it_curr it_next] in *. fold e. rewrite (@spec_before e c) by lia. destruct (utc_spec e c) as [[|]|]; [|..|reflexivity].
    + apply Z.ltb_lt in L. now rewrite L.
    + unfold add_minute in *. destruct (Z.leb_spec (c + minute + minute) ms_max) as [Hx|Hx]; [|reflexivity].
      apply IH; [unfold minute in *; lia|exact Hx|exact N].
  - pose proof (proceed_spec (utc_spec e) ms_max (S fuel) c) as P.
    assert (E : proceed_next (chrono_spec e) ms_max (S fuel) (mk_iter c (c + minute)) = IPanic).
    { cbn [proceed_next it_curr]. unfold e. rewrite spec_after; [reflexivity|]. unfold minute in Hm. lia. }
    rewrite E. destruct (proceed_next (utc_spec e) ms_max (S fuel) (mk_iter c (c + minute))) as [it' item| |]; try reflexivity.
    destruct P as (k & -> & _). destruct (Z.ltb_spec (grid c k) ms_december) as [B|B]; [|reflexivity]. unfold grid, minute in B. lia.
Qed.
(** The next time of an iterator without an end is the one of the unlimited calendar if it is before the last December; in
    every other case the call panics. *)
Theorem C106_next : forall txt e n it, cron_parse txt = Success e n -> ms_min <= it_next it ->
  inext (chrono_spec e) ms_max None it =
  match inext (utc_spec e) ms_max None it with
  | IYield it' (Some r) => if r <? ms_december then IYield it' (Some r) else IPanic
  | _ => IPanic
  end.
Proof.
  intros txt e n it P Hi. destruct (accepted_cron _ P) as (m & h & d & mo & w & ->).
  pose proof (C41_inext_ends (utc_spec (Cron m h d mo w)) ms_max None it) as E. unfold inext, inext_fuel, add_minute in *.
  destruct (Z.leb_spec (it_next it + minute) ms_max) as [L|L]; [|reflexivity]. now apply proceed_chrono.
Qed.
(** So the first n times of a schedule exist exactly if the unlimited ones do and lie before the last December, and then they
    are the same; C92 says which they are. *)
Theorem C106_schedule : forall txt e len n it items, cron_parse txt = Success e len -> ms_min <= it_next it ->
  (items_chrono e ms_max n it = Some items <->
   items_of e ms_max n it = Some items /\ forall item, In item items -> exists r, item = Some r /\ r < ms_december).
Proof.
  intros txt e len n. induction n as [|n IH]; intros it items P Hi.
  - cbn. split; [intros H; inv H; split; [reflexivity|intros ? []]|tauto].
  - cbn [items_chrono items_of]. rewrite (@C106_next _ _ _ it P Hi).
    destruct (inext (utc_spec e) ms_max None it) as [it' item| |] eqn:E; try (split; [discriminate|intros [H _]; discriminate]).
    pose proof (@inext_yield _ _ _ _ _ _ _ E) as Y. destruct Y as [(r & -> & -> & ((j & F1) & _) & _)|(x & A & _)]; [|discriminate].
    assert (Hr : ms_min <= r + minute) by (unfold grid, minute in *; lia).
    destruct (Z.ltb_spec r ms_december) as [L|L].
    + specialize (IH (mk_iter r (r + minute))). split.
      * intros H. destruct (items_chrono e ms_max n (mk_iter r (r + minute))) as [l|] eqn:C; [|discriminate]. inv H.
        destruct (proj1 (IH l P Hr) eq_refl) as [-> K]. split; [reflexivity|]. intros item [<-|H]; [eauto|now apply K].
      * intros [H K]. destruct (items_of e ms_max n (mk_iter r (r + minute))) as [l|] eqn:C; [|discriminate]. inv H.
        rewrite (proj2 (IH l P Hr)); [reflexivity|]. split; [reflexivity|]. intros item H. apply K. now right.
    + split; [discriminate|]. intros [H K]. destruct (items_of e ms_max n (mk_iter r (r + minute))) as [l|]; [|discriminate]. injection H as <-.
      destruct (K (Some r) (or_introl eq_refl)) as (r' & Er & Lr). injection Er as <-. lia.
Qed.
(** At the last minute of November 262142 the schedule of every minute still has a time, one minute later it has none. *)
Example C106_example : let e := Cron AnyValueExpr AnyValueExpr AnyValueExpr AnyValueExpr AnyValueExpr in
  cron_parse (bs "* * * * *") = Success e 9 /\
  dt_year (utc (ms_december - 60000)) = 262142 /\ dt_month (utc (ms_december - 60000)) = 11%N /\ dt_day (utc (ms_december - 60000)) = 30%N /\
  chrono_spec e (ms_december - 60000) = Some true /\ chrono_spec e ms_december = None /\
  ms_min <= ms_december - 60000 <= ms_max /\ ms_max = 8210266876799999.
Proof. cbv zeta. repeat split; vm_compute; try reflexivity; discriminate. Qed.
Print Assumptions C106_last_december_panics.
Print Assumptions C106_eval_returns_refuted.
Print Assumptions C106_eval_elsewhere_partial.
Print Assumptions C106_next.
Print Assumptions C106_schedule.
