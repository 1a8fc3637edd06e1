(** C35-C41: cron expressions. *)
From Coq Require Import Sorting.Sorted.
From Verif Require Import Base Core Comb Closure RepFacts LitFacts Hoare Cron CronSpec Calendar.
Set Implicit Arguments.
Local Open Scope string_scope.
Local Open Scope nat_scope.
Local Open Scope list_scope.

(** ** C35 *)
Lemma u8c : forall x, (x <= 255)%N -> u8_of_char x = x.
Proof. intros x H. unfold u8_of_char. apply N.mod_small. lia. Qed.
Lemma digit1_ok : forall x, (48 <= x <= 57)%N -> digit1 x = Some (ValueExpr (x - 48)).
Proof. intros x H. unfold digit1, u8_sub. rewrite u8c by lia. destruct (N.leb_spec 48 x); [reflexivity|lia]. Qed.
Lemma digit2_ok : forall a b, (48 <= a <= 57)%N -> (48 <= b <= 57)%N ->
  digit2 (a, b) = Some (ValueExpr (10 * (a - 48) + (b - 48))).
Proof.
  intros a b Ha Hb. unfold digit2, u8_sub, u8_mul, u8_add. cbn [fst snd]. rewrite !u8c by lia.
  destruct (N.leb_spec 48 a); [|lia]. cbn [obind].
  destruct (N.leb_spec ((a - 48) * 10) 255); [|lia]. cbn [obind].
  destruct (N.leb_spec ((a - 48) * 10 + b) 255); [|lia]. cbn [obind].
  destruct (N.leb_spec 48 ((a - 48) * 10 + b)); [|lia]. cbn [obind]. do 2 f_equal. lia.
Qed.

Lemma num1 : forall lo hi x, (48 <= x <= 57)%N -> (lo <= x - 48 <= hi)%N ->
  exists e, digit1 x = Some e /\ num_unit lo hi [x] e.
Proof.
  intros lo hi x H1 H2. eexists. split; [now apply digit1_ok|]. exists (x - 48)%N. repeat split; try lia.
  replace x with (48 + (x - 48))%N at 1 by lia. constructor. lia.
Qed.
Lemma num01 : forall lo hi x, (48 <= x <= 57)%N -> (lo <= x - 48 <= hi)%N ->
  exists e, digit1 x = Some e /\ num_unit lo hi ([48%N] ++ [x]) e.
Proof.
  intros lo hi x H1 H2. eexists. split; [now apply digit1_ok|]. exists (x - 48)%N. repeat split; try lia.
  replace (x - 48)%N with (10 * 0 + (x - 48))%N by lia.
  replace x with (48 + (x - 48))%N at 1 by lia. apply (@dec_two 0 (x - 48)); lia.
Qed.
Lemma num2 : forall lo hi a b, (48 <= a <= 57)%N -> (48 <= b <= 57)%N ->
  (lo <= 10 * (a - 48) + (b - 48) <= hi)%N ->
  exists e, digit2 (a, b) = Some e /\ num_unit lo hi ([a] ++ [b]) e.
Proof.
  intros lo hi a b Ha Hb H. eexists. split; [now apply digit2_ok|]. eexists. split; [reflexivity|].
  split; [lia|]. replace a with (48 + (a - 48))%N at 1 by lia. replace b with (48 + (b - 48))%N at 1 by lia.
  apply dec_two; lia.
Qed.

(** The element facts used below, as triples with the code of the element. *)
Lemma e_in : forall a b, hoare (p_elm_in a b) (fun x s => s = [x] /\ (a <= x <= b)%N).
Proof. intros a b. apply h_elm_in. auto. Qed.
Lemma e_elm : forall e, hoare (p_elm e) (fun x s => s = [x] /\ (e <= x <= e)%N).
Proof. intros e. apply h_elm. split; [reflexivity|lia]. Qed.
Lemma e_chr : forall e, hoare (p_elm e) (fun x s => s = [e]).
Proof. intros e. apply h_elm. reflexivity. Qed.
Lemma e_digit : hoare p_elm_digit (fun x s => s = [x] /\ (48 <= x <= 57)%N).
Proof. apply h_digit. auto. Qed.
Lemma e_digit19 : hoare p_elm_digit_1_9 (fun x s => s = [x] /\ (49 <= x <= 57)%N).
Proof. apply h_digit_1_9. auto. Qed.
Lemma e_of01 : hoare (p_elm_of (bs "01")) (fun x s => s = [x] /\ (48 <= x <= 49)%N).
Proof. apply h_elm_of. intros x [<-|[<-|[]]]; split; reflexivity || (vm_compute; split; discriminate). Qed.
Lemma e_of12 : hoare (p_elm_of (bs "12")) (fun x s => s = [x] /\ (49 <= x <= 50)%N).
Proof. apply h_elm_of. intros x [<-|[<-|[]]]; split; reflexivity || (vm_compute; split; discriminate). Qed.
Lemma e_of012 : hoare (p_elm_of (bs "012")) (fun x s => s = [x] /\ (48 <= x <= 50)%N).
Proof. apply h_elm_of. intros x [<-|[<-|[<-|[]]]]; split; reflexivity || (vm_compute; split; discriminate). Qed.

Lemma h_two : forall (p q : parser N N) a b c d lo hi,
  hoare p (fun x s => s = [x] /\ (a <= x <= b)%N) -> hoare q (fun x s => s = [x] /\ (c <= x <= d)%N) ->
  (48 <= a)%N -> (b <= 57)%N -> (48 <= c)%N -> (d <= 57)%N ->
  (lo <= 10 * (a - 48) + (c - 48))%N -> (10 * (b - 48) + (d - 48) <= hi)%N ->
  hoare (p_attempt (p_map_panic (p_and p q) digit2)) (fun e s => num_unit lo hi s e).
Proof.
  intros p q a b c d lo hi Hp Hq H1 H2 H3 H4 H5 H6. apply h_attempt.
  eapply h_map_panic with (Q := fun xy s => s = [fst xy] ++ [snd xy] /\ (a <= fst xy <= b)%N /\ (c <= snd xy <= d)%N).
  - eapply h_and; [exact Hp|exact Hq|]. cbn. intros x y s t [-> Hx] [-> Hy]. auto.
  - intros [x y] s (-> & Hx & Hy). cbn [fst snd] in *. apply num2; lia.
Qed.
Lemma h_zero_one : forall (q : parser N N) c d lo hi,
  hoare q (fun x s => s = [x] /\ (c <= x <= d)%N) -> (48 <= c)%N -> (d <= 57)%N ->
  (lo <= c - 48)%N -> (d - 48 <= hi)%N ->
  hoare (p_attempt (p_map_panic (p_skip_left (p_elm (chr "0")) q) digit1)) (fun e s => num_unit lo hi s e).
Proof.
  intros q c d lo hi Hq H1 H2 H3 H4. apply h_attempt.
  eapply h_map_panic with (Q := fun x s => s = [48%N] ++ [x] /\ (c <= x <= d)%N).
  - eapply h_skip_left; [apply e_chr|exact Hq|]. cbn beta. intros a b s t -> [-> Hb]. split; [reflexivity|exact Hb].
  - intros x s [-> Hx]. apply num01; lia.
Qed.
Lemma h_one : forall (q : parser N N) c d lo hi,
  hoare q (fun x s => s = [x] /\ (c <= x <= d)%N) -> (48 <= c)%N -> (d <= 57)%N ->
  (lo <= c - 48)%N -> (d - 48 <= hi)%N ->
  hoare (p_map_panic q digit1) (fun e s => num_unit lo hi s e).
Proof.
  intros q c d lo hi Hq H1 H2 H3 H4. eapply h_map_panic; [exact Hq|]. cbn. intros x s [-> Hx]. apply num1; lia.
Qed.
Ltac num := (apply N.leb_le; reflexivity).

Lemma h_min : hoare min_digit (fun e s => num_unit 0 59 s e).
Proof.
  unfold min_digit. apply h_or; [apply h_or|].
  - eapply h_two; [apply e_in|apply e_digit|..]; num.
  - eapply h_zero_one; [apply e_digit|..]; num.
  - eapply h_one; [apply e_digit|..]; num.
Qed.
Lemma h_hour : hoare hour_digit (fun e s => num_unit 0 23 s e).
Proof.
  unfold hour_digit. apply h_or; [apply h_or; [apply h_or|]|apply h_log_map].
  - eapply h_two; [apply e_elm|apply e_in|..]; num.
  - eapply h_two; [apply e_elm|apply e_digit|..]; num.
  - eapply h_zero_one; [apply e_digit|..]; num.
  - eapply h_one; [apply e_digit|..]; num.
Qed.
Lemma h_day : hoare day_digit (fun e s => num_unit 1 31 s e).
Proof.
  unfold day_digit. apply h_or; [apply h_or; [apply h_or|]|].
  - eapply h_two; [apply e_elm|apply e_of01|..]; num.
  - eapply h_two; [apply e_of12|apply e_digit|..]; num.
  - eapply h_zero_one; [apply e_digit19|..]; num.
  - eapply h_one; [apply e_digit19|..]; num.
Qed.
Lemma h_month : hoare month_digit (fun e s => num_unit 1 12 s e).
Proof.
  unfold month_digit. apply h_or; [apply h_or|].
  - eapply h_two; [apply e_elm|apply e_of012|..]; num.
  - eapply h_zero_one; [apply e_digit19|..]; num.
  - eapply h_one; [apply e_digit19|..]; num.
Qed.
Lemma h_dow : hoare dow (fun e s => dow_unit s e).
Proof.
  assert (D : forall nm n, dow_unit (bs nm) (ValueExpr n) ->
    hoare (p_attempt (p_map (p_tag (bs nm)) (fun _ => ValueExpr n))) (fun e s => dow_unit s e)).
  { intros nm n H. apply h_attempt. eapply h_map with (Q := fun v s => v = bs nm /\ s = bs nm).
    - apply h_tag. auto.
    - intros v s [_ ->]. exact H. }
  unfold dow, day_of_week_digit. apply h_or.
  - unfold day_of_week_text. eapply h_map_panic; [apply e_in|]. cbn. intros x s [-> Hx].
    change (chr "1") with 49%N in Hx. change (chr "7") with 55%N in Hx.
    eexists. split; [apply digit1_ok; lia|]. left. exists (x - 48)%N. repeat split; try lia. f_equal. lia.
  - repeat apply h_or; try (apply D; unfold dow_unit; tauto).
    eapply h_map; [apply e_chr|]. cbn beta. intros x s ->. unfold dow_unit. tauto.
Qed.

Lemma h_field : forall (U : list N -> cexpr -> Prop) (x : parser N cexpr), (forall s e, U s e -> s <> []) -> hoare x (fun e s => U s e) ->
  hoare (digit_instruction x) (fun e s => field_text U s e).
Proof.
  intros U x Hne Hx. unfold digit_instruction.
  assert (P : hoare (per x) (fun e s => exists u, s = bs "/" ++ u /\ U u e)).
  { unfold per. eapply h_skip_left; [apply e_chr|exact Hx|]. cbn beta. intros a b s t -> Hb. exists t. split; [reflexivity|exact Hb]. }
  assert (A : hoare asterisk (fun e s => s = bs "*" /\ e = AnyValueExpr)).
  { unfold asterisk. eapply h_map; [apply e_chr|]. cbn beta. intros v s ->. split; reflexivity. }
  apply h_or; [apply h_or|].
  - unfold clist. apply h_attempt. eapply h_map with
      (Q := fun vs s => exists v s1 vs' t, vs = v :: vs' /\ s = s1 ++ t /\ item_text U s1 v /\ more_text U t vs').
    + eapply h_many1_sep with (Q := fun e s => item_text U s e) (S := fun _ t => t = bs ",").
      * apply h_or.
        -- unfold crange. apply h_attempt. eapply h_map with
             (Q := fun abc s => item_text U s (RangeExpr (fst (fst abc)) (snd (fst abc)) (snd abc))); [|auto].
           eapply h_and with
             (P := fun ab s => exists s1 s2, s = s1 ++ bs "-" ++ s2 /\ U s1 (fst ab) /\ U s2 (snd ab))
             (Q := fun c s => (s = [] /\ c = NoOp) \/ exists u, s = bs "/" ++ u /\ U u c).
           ++ eapply h_and with (P := fun a s => exists s1, s = s1 ++ bs "-" /\ U s1 a); [|exact Hx|].
              ** eapply h_skip_right; [exact Hx|apply e_chr|]. cbn beta. intros a b s t Ha ->. exists s. split; [reflexivity|exact Ha].
              ** cbn. intros a b s t (s1 & -> & Ha) Hb. exists s1, t. rewrite <- app_assoc. auto.
           ++ unfold range_per. eapply h_map with
                (Q := fun o s => match o with None => s = [] | Some c => exists u, s = bs "/" ++ u /\ U u c end).
              ** eapply h_opt; [exact P|auto|reflexivity].
              ** intros [c|] s H; [right|left]; auto.
           ++ intros [a b] c s t (s1 & s2 & -> & Ha & Hb) [[-> ->]|(u & -> & Hc)]; cbn [fst snd] in *.
              ** rewrite app_nil_r. now apply it_range.
              ** rewrite <- !app_assoc. now apply it_step.
        -- eapply h_weaken; [exact Hx|]. intros v s H. now apply it_unit.
      * apply e_chr.
      * intros v s w t _ ->. discriminate.
      * intros v s vs t Hv Ht. exists v, s, vs, t. repeat split; auto.
        clear -Ht. induction Ht; subst; [constructor|constructor|]. now constructor.
    + intros vs s (v & s1 & vs' & t & -> & -> & H1 & H2). destruct vs'; [now apply ft_one|now apply ft_list].
  - unfold asterisk_per. apply h_attempt. eapply h_map with (Q := fun ab s => field_text U s (PerExpr (fst ab) (snd ab))); [|auto].
    eapply h_and; [exact A|exact P|]. cbn. intros a b s t [-> ->] (u & -> & Hu). now apply ft_per.
  - eapply h_weaken; [exact A|]. cbn. intros v s [-> ->]. apply ft_any.
Qed.

Lemma dec_ne : forall lo hi s e, num_unit lo hi s e -> s <> [].
Proof. intros lo hi s e (n & _ & _ & H). inv H; discriminate. Qed.
Lemma dow_ne : forall s e, dow_unit s e -> s <> [].
Proof.
  intros s e H. unfold dow_unit in H.
  repeat match goal with H : _ \/ _ |- _ => destruct H as [H|H] end;
    repeat match goal with H : exists _, _ |- _ => destruct H end; intuition (subst; discriminate).
Qed.

Lemma h_cron : hoare (p_skip_right instruction p_end) (fun e s => cron_text s e).
Proof.
  assert (Sp : hoare (p_elm (chr " ")) (fun _ s => s = bs " ")) by (apply h_elm; reflexivity).
  eapply h_skip_right with (P := fun e s => cron_text s e) (Q := fun _ s => s = []).
  - unfold instruction. eapply h_map with (Q := fun v s =>
      let '((((a, b), c), d), e) := v in cron_text s (Cron a b c d e)).
    + eapply h_and with (Q := fun e s => field_text dow_unit s e)
        (P := fun v s => let '(((a, b), c), d) := v in exists s1 s2 s3 s4,
          s = s1 ++ bs " " ++ s2 ++ bs " " ++ s3 ++ bs " " ++ s4 ++ bs " " /\ field_text (num_unit 0 59) s1 a /\
          field_text (num_unit 0 23) s2 b /\ field_text (num_unit 1 31) s3 c /\ field_text (num_unit 1 12) s4 d).
      2: apply h_field; [apply dow_ne|apply h_dow].
      2: { intros [[[a b] c] d] e s t (s1 & s2 & s3 & s4 & -> & H1 & H2 & H3 & H4) H5.
           repeat rewrite <- app_assoc. now constructor. }
      eapply h_skip_right with (Q := fun _ s => s = bs " ") (P := fun v s => let '(((a, b), c), d) := v in exists s1 s2 s3 s4,
          s = s1 ++ bs " " ++ s2 ++ bs " " ++ s3 ++ bs " " ++ s4 /\ field_text (num_unit 0 59) s1 a /\
          field_text (num_unit 0 23) s2 b /\ field_text (num_unit 1 31) s3 c /\ field_text (num_unit 1 12) s4 d).
      2: exact Sp.
      2: { intros [[[a b] c] d] _ s t (s1 & s2 & s3 & s4 & -> & H1 & H2 & H3 & H4) ->.
           exists s1, s2, s3, s4. repeat rewrite <- app_assoc. auto. }
      eapply h_and with (Q := fun e s => field_text (num_unit 1 12) s e)
        (P := fun v s => let '((a, b), c) := v in exists s1 s2 s3,
          s = s1 ++ bs " " ++ s2 ++ bs " " ++ s3 ++ bs " " /\ field_text (num_unit 0 59) s1 a /\
          field_text (num_unit 0 23) s2 b /\ field_text (num_unit 1 31) s3 c).
      2: apply h_field; [apply dec_ne|apply h_month].
      2: { intros [[a b] c] d s t (s1 & s2 & s3 & -> & H1 & H2 & H3) H4.
           exists s1, s2, s3, t. repeat rewrite <- app_assoc. auto. }
      eapply h_skip_right with (Q := fun _ s => s = bs " ") (P := fun v s => let '((a, b), c) := v in exists s1 s2 s3,
          s = s1 ++ bs " " ++ s2 ++ bs " " ++ s3 /\ field_text (num_unit 0 59) s1 a /\
          field_text (num_unit 0 23) s2 b /\ field_text (num_unit 1 31) s3 c).
      2: exact Sp.
      2: { intros [[a b] c] _ s t (s1 & s2 & s3 & -> & H1 & H2 & H3) ->.
           exists s1, s2, s3. repeat rewrite <- app_assoc. auto. }
      eapply h_and with (Q := fun e s => field_text (num_unit 1 31) s e)
        (P := fun v s => let '(a, b) := v in exists s1 s2,
          s = s1 ++ bs " " ++ s2 ++ bs " " /\ field_text (num_unit 0 59) s1 a /\ field_text (num_unit 0 23) s2 b).
      2: apply h_field; [apply dec_ne|apply h_day].
      2: { intros [a b] c s t (s1 & s2 & -> & H1 & H2) H3.
           exists s1, s2, t. repeat rewrite <- app_assoc. auto. }
      eapply h_skip_right with (Q := fun _ s => s = bs " ") (P := fun v s => let '(a, b) := v in exists s1 s2,
          s = s1 ++ bs " " ++ s2 /\ field_text (num_unit 0 59) s1 a /\ field_text (num_unit 0 23) s2 b).
      2: exact Sp.
      2: { intros [a b] _ s t (s1 & s2 & -> & H1 & H2) ->.
           exists s1, s2. repeat rewrite <- app_assoc. auto. }
      eapply h_and with (Q := fun e s => field_text (num_unit 0 23) s e)
        (P := fun a s => exists s1, s = s1 ++ bs " " /\ field_text (num_unit 0 59) s1 a).
      2: apply h_field; [apply dec_ne|apply h_hour].
      2: { intros a b s t (s1 & -> & H1) H2. exists s1, t. repeat rewrite <- app_assoc. auto. }
      eapply h_skip_right; [apply h_field; [apply dec_ne|apply h_min]|exact Sp|].
      cbn. intros a _ s t H ->. eauto.
    + intros [[[[a b] c] d] e] s H. exact H.
  - apply h_end. reflexivity.
  - cbn. intros a _ s t H ->. now rewrite app_nil_r.
Qed.

(** An accepted text is, in full, a text of the notation for the returned expression. *)
Theorem C35_accepted_text : forall t e n, cron_parse t = Success e n -> cron_text t e /\ n = length t.
Proof.
  intros t e n H. unfold cron_parse, parse in H.
  destruct (h_success h_cron (Nat.le_0_l _) H) as [B C]. cbn [skipn Nat.add] in *.
  assert (n = length t).
  { unfold p_skip_right in H. destruct (instruction t 0) as [v m|? ?| |]; try discriminate. cbn [Nat.add] in H.
    unfold p_end in H. destruct (ps_input t m) as [rest|] eqn:E; [|discriminate].
    apply ps_input_some in E. destruct E as [E1 E2]. destruct rest; cbn in H; [|discriminate]. inv H.
    symmetry in E2. apply skipn_nil_iff in E2. lia. }
  subst n. rewrite firstn_all in C. auto.
Qed.

Lemma unit_numbers_num : forall lo hi s e, num_unit lo hi s e -> within lo hi e.
Proof. intros lo hi s e (n & -> & H & _). unfold within. cbn. auto. Qed.
Lemma unit_numbers_dow : forall s e, dow_unit s e -> within 1 7 e.
Proof.
  intros s e H. unfold dow_unit in H. unfold within.
  destruct H as [(n & -> & H & _)|H]; [cbn; auto|].
  repeat match goal with H : _ \/ _ |- _ => destruct H as [H|H] end; destruct H as [_ ->]; cbn;
    repeat constructor; discriminate.
Qed.
Lemma field_numbers : forall (U : list N -> cexpr -> Prop) lo hi, (forall s e, U s e -> within lo hi e) ->
  forall s e, field_text U s e -> within lo hi e.
Proof.
  intros U lo hi HU.
  assert (HI : forall s e, item_text U s e -> within lo hi e).
  { intros s e H. destruct H.
    - eauto.
    - apply HU in H. apply HU in H0. unfold within in *. cbn. rewrite app_nil_r. apply Forall_app. auto.
    - apply HU in H. apply HU in H0. apply HU in H1. unfold within in *. cbn. rewrite !Forall_app. auto. }
  assert (HM : forall t es, more_text U t es -> Forall (within lo hi) es).
  { intros t es H. induction H; constructor; eauto. }
  intros s e H. destruct H.
  - eauto.
  - apply HM in H0. apply HI in H. unfold within in *. cbn [numbers].
    assert (G : Forall (fun e => Forall (fun n => (lo <= n <= hi)%N) (numbers e)) (e :: e' :: es)) by (constructor; auto).
    clear -G. induction G; cbn; [constructor|]. apply Forall_app. auto.
  - unfold within in *. cbn. eauto.
  - constructor.
Qed.
Theorem C35_values_in_range : forall t e n, cron_parse t = Success e n ->
  exists mins hours days months dows, e = Cron mins hours days months dows /\
    within 0 59 mins /\ within 0 23 hours /\ within 1 31 days /\ within 1 12 months /\ within 1 7 dows.
Proof.
  intros t e n H. apply C35_accepted_text in H. destruct H as [H _]. inv H.
  exists e1, e2, e3, e4, e5. split; [reflexivity|].
  repeat split; eapply field_numbers; try eassumption; eauto using unit_numbers_num, unit_numbers_dow.
Qed.
(** Parsing returns on every text: it neither panics (arithmetic overflow) nor loops. *)
Theorem C35_parse_returns : forall t, cron_parse t <> Panic /\ cron_parse t <> Diverge.
Proof. intros t. apply (h_returns h_cron). lia. Qed.
Example C35_example :
  exists e, cron_parse (bs "0-59/30,07 23 31,1, 12 MON-L") = Success e 28 /\
    numbers e = [0; 59; 30; 7; 23; 31; 1; 12; 2]%N.
Proof. eexists. split; [vm_compute; reflexivity|]. reflexivity. Qed.
Print Assumptions C35_accepted_text.
Print Assumptions C35_values_in_range.
Print Assumptions C35_parse_returns.

(** ** C36 *)
Lemma step_iter_in : forall fuel cur b k x, (0 < k)%N -> N.to_nat (b - cur) < fuel ->
  In x (step_iter fuel cur b k) <-> exists i, x = (cur + i * k)%N /\ (x <= b)%N.
Proof.
  induction fuel as [|fuel IH]; intros cur b k x Hk Hf; [lia|]. cbn.
  destruct (N.leb_spec cur b) as [Hc|Hc].
  - cbn. destruct (N.le_gt_cases (cur + k) b) as [Hn|Hn].
    + rewrite IH by lia. split.
      * intros [<-|(i & -> & Hi)]; [exists 0%N; lia|]. exists (i + 1)%N. lia.
      * intros (i & -> & Hi). destruct (N.eq_dec i 0) as [->|Hi0]; [left; lia|right]. exists (i - 1)%N. nia.
    + assert (E : step_iter fuel (cur + k) b k = []).
      { destruct fuel; [reflexivity|]. cbn. destruct (N.leb_spec (cur + k) b); [lia|reflexivity]. }
      rewrite E. cbn. split.
      * intros [<-|[]]. exists 0%N. lia.
      * intros (i & -> & Hi). left. destruct (N.eq_dec i 0) as [->|Hi0]; [lia|]. nia.
  - split; [intros []|]. intros (i & -> & Hi). nia.
Qed.
Lemma step_any_spec : forall a b k now, (0 < k)%N ->
  exists r, step_any a b k now = Some r /\ (r = true <-> exists i, now = (a + i * k)%N /\ (now <= b)%N).
Proof.
  intros a b k now Hk. unfold step_any. destruct (N.eqb_spec k 0); [lia|]. eexists. split; [reflexivity|].
  rewrite existsb_exists. unfold step_range. split.
  - intros (x & Hx & E). apply N.eqb_eq in E. subst x. apply step_iter_in in Hx; [exact Hx|exact Hk|lia].
  - intros H. exists now. split; [|apply N.eqb_refl]. apply step_iter_in; [exact Hk|lia|exact H].
Qed.
Lemma visit_list : forall env l, visit env (ListExpr l) = any_panic (visit env) l.
Proof.
  intros env l. cbn [visit]. induction l as [|x l IH]; [reflexivity|]. cbn [any_panic]. now rewrite <- IH.
Qed.
Lemma any_panic_spec : forall A (f : A -> option bool) l, (forall x, In x l -> f x <> None) ->
  exists r, any_panic f l = Some r /\ (r = true <-> exists x, In x l /\ f x = Some true).
Proof.
  intros A f l. induction l as [|x l IH]; intros H.
  - exists false. split; [reflexivity|]. split; [discriminate|intros (x & [] & _)].
  - cbn [any_panic]. destruct (f x) as [[|]|] eqn:E.
    + exists true. split; [reflexivity|]. split; [|reflexivity]. intros _. exists x. split; [now left|exact E].
    + destruct IH as (r & H1 & H2); [intros y Hy; apply H; now right|]. exists r. split; [exact H1|]. rewrite H2. split.
      * intros (y & Hy & Ey). exists y. split; [now right|exact Ey].
      * intros (y & [<-|Hy] & Ey); [congruence|]. eauto.
    + exfalso. apply (H x); [now left|exact E].
Qed.

Definition zero_step (e : cexpr) : Prop := has_step (ValueExpr 0) e.

Lemma visit_item : forall now max e, shape_item e -> ~ zero_step e -> ~ inner_last e ->
  exists r, visit (mk_env now max) e = Some r /\ (r = true <-> field_has max e now).
Proof.
  intros now max e He Hz Hl. unfold zero_step in *. destruct He as [e He|a b Ha Hb|a b c Ha Hb Hc].
  - destruct He as [n|]; cbn [visit env_now env_max].
    + eexists. split; [reflexivity|]. rewrite N.eqb_eq. split.
      * intros ->. apply fh_unit. constructor.
      * intros H. inv H. match goal with H : unit_value _ _ _ |- _ => inv H end. reflexivity.
    + eexists. split; [reflexivity|]. rewrite N.eqb_eq. split.
      * intros ->. apply fh_unit. constructor.
      * intros H. inv H. match goal with H : unit_value _ _ _ |- _ => inv H end. reflexivity.
  - destruct Ha as [lo|]; [|exfalso; apply Hl; constructor].
    destruct Hb as [hi|]; [|exfalso; apply Hl; constructor]. cbn [visit env_now env_max].
    eexists. split; [reflexivity|]. rewrite andb_true_iff, !N.leb_le. split.
    + intros H. eapply fh_range; [constructor|constructor|exact H].
    + intros H. inv H; repeat match goal with H : unit_value _ _ _ |- _ => inv H end. assumption.
  - destruct Ha as [lo|]; [|exfalso; apply Hl; constructor].
    destruct Hb as [hi|]; [|exfalso; apply Hl; constructor].
    destruct Hc as [s|]; [|exfalso; apply Hl; constructor]. cbn [visit env_now env_max].
    assert (Hs : (0 < s)%N). { destruct (N.eq_dec s 0) as [->|]; [|lia]. exfalso. apply Hz. constructor. }
    destruct (step_any_spec lo hi now Hs) as (r & H1 & H2). exists r. split; [exact H1|]. rewrite H2. split.
    + intros (i & -> & Hi). eapply fh_step; [constructor|constructor|constructor|exact Hi].
    + intros H. inv H; repeat match goal with H : unit_value _ _ _ |- _ => inv H end. eauto.
Qed.

Lemma visit_field : forall now max e, shape_field e -> ~ zero_step e -> ~ inner_last e ->
  exists r, visit (mk_env now max) e = Some r /\ (r = true <-> field_has max e now).
Proof.
  intros now max e He Hz Hl. destruct He as [e He|l Hs|e He|].
  - now apply visit_item.
  - rewrite visit_list.
    assert (G : forall x, In x l -> exists r, visit (mk_env now max) x = Some r /\ (r = true <-> field_has max x now)).
    { intros x Hx. apply visit_item.
      - now apply (proj1 (Forall_forall _ _) Hs).
      - intros H. apply Hz. eapply hs_list; eassumption.
      - intros H. apply Hl. eapply il_list; eassumption. }
    destruct (any_panic_spec (visit (mk_env now max)) l) as (r & H1 & H2).
    { intros x Hx E. destruct (G x Hx) as (r & E' & _). congruence. }
    exists r. split; [exact H1|]. rewrite H2. split.
    + intros (x & Hx & E). destruct (G x Hx) as (r' & E' & Hr'). rewrite E in E'. inv E'.
      eapply fh_list; [exact Hx|]. now apply Hr'.
    + intros H. inv H; [match goal with H : unit_value _ _ _ |- _ => inv H end|].
      match goal with H : In ?e l |- _ => destruct (G e H) as (r' & E' & Hr'); exists e; split; [exact H|] end.
      rewrite E'. f_equal. now apply Hr'.
  - destruct He as [s|]; [|exfalso; apply Hl; constructor]. cbn [visit env_now env_max].
    assert (Hs : (0 < s)%N). { destruct (N.eq_dec s 0) as [->|]; [|lia]. exfalso. apply Hz. constructor. }
    destruct (step_any_spec 0 max now Hs) as (r & H1 & H2). exists r. split; [exact H1|]. rewrite H2. split.
    + intros (i & -> & Hi). rewrite N.add_0_l in *. apply fh_per; [constructor|exact Hi].
    + intros H. inv H; repeat match goal with H : unit_value _ _ _ |- _ => inv H end. exists k. rewrite N.add_0_l. auto.
  - exists true. split; [reflexivity|]. split; [intros _; apply fh_any|reflexivity].
Qed.

(** Full statement: for every field of the grammar with non-zero steps, visit answers membership in [field_has].  False:
    L as an end point or step makes the item match nothing. *)
Theorem C36_last_in_range_refuted :
  exists t mins hours days months dows x,
    cron_parse t = Success (Cron mins hours days months dows) (length t) /\ ~ zero_step dows /\
    field_has 7 dows x /\ visit (mk_env x 7) dows = Some false.
Proof.
  exists (bs "* * * * MON-L"), AnyValueExpr, AnyValueExpr, AnyValueExpr, AnyValueExpr,
    (RangeExpr (ValueExpr 2) LastValueExpr NoOp), 3%N.
  split; [vm_compute; reflexivity|]. split; [intros H; inv H|]. split; [|reflexivity].
  eapply fh_range; [constructor|constructor|lia].
Qed.
(** Missing from the full statement: L inside a range or step. *)
Theorem C36_field_membership_partial : forall now max e, shape_field e -> ~ zero_step e -> ~ inner_last e ->
  (visit (mk_env now max) e = Some true <-> field_has max e now) /\
  (visit (mk_env now max) e = Some false <-> ~ field_has max e now).
Proof.
  intros now max e H1 H2 H3. destruct (visit_field now max H1 H2 H3) as (r & -> & Hr). rewrite <- Hr.
  destruct r; split; split; intros; try congruence; tauto.
Qed.
(** An item with such an L matches nothing at all. *)
Theorem C36_inner_last_never : forall now max e, shape_item e -> inner_last e -> visit (mk_env now max) e = Some false.
Proof.
  intros now max e He Hl. destruct He as [e He|a b Ha Hb|a b c Ha Hb Hc].
  - destruct He; inv Hl.
  - destruct Ha; [destruct Hb|]; try reflexivity. inv Hl.
  - destruct Ha; [destruct Hb; [destruct Hc|]|]; try reflexivity. inv Hl.
Qed.
(** Every accepted field has one of these shapes. *)
Lemma unit_shape_num : forall lo hi s e, num_unit lo hi s e -> shape_unit e.
Proof. intros lo hi s e (n & -> & _). constructor. Qed.
Lemma unit_shape_dow : forall s e, dow_unit s e -> shape_unit e.
Proof.
  intros s e H. unfold dow_unit in H. destruct H as [(n & -> & _)|H]; [constructor|].
  repeat match goal with H : _ \/ _ |- _ => destruct H as [H|H] end; destruct H as [_ ->]; constructor.
Qed.
Lemma field_shape : forall (U : list N -> cexpr -> Prop), (forall s e, U s e -> shape_unit e) ->
  forall s e, field_text U s e -> shape_field e.
Proof.
  intros U HU.
  assert (HI : forall s e, item_text U s e -> shape_item e) by (intros s e H; destruct H; econstructor; eauto).
  assert (HM : forall t es, more_text U t es -> Forall shape_item es) by (intros t es H; induction H; constructor; eauto).
  intros s e H. destruct H.
  - apply sf_item. eauto.
  - apply sf_list. constructor; eauto.
  - apply sf_per. eauto.
  - apply sf_any.
Qed.
Theorem C36_accepted_shapes : forall t e n, cron_parse t = Success e n ->
  exists mins hours days months dows, e = Cron mins hours days months dows /\
    shape_field mins /\ shape_field hours /\ shape_field days /\ shape_field months /\ shape_field dows /\
    ~ inner_last mins /\ ~ inner_last hours /\ ~ inner_last days /\ ~ inner_last months.
Proof.
  intros t e n H. apply C35_accepted_text in H. destruct H as [H _]. inv H.
  exists e1, e2, e3, e4, e5. split; [reflexivity|].
  assert (NL : forall lo hi s e, field_text (num_unit lo hi) s e -> ~ inner_last e).
  { intros lo hi.
    assert (NU : forall s e, num_unit lo hi s e -> e <> LastValueExpr) by (intros s e (n0 & -> & _); discriminate).
    assert (NI : forall s e, item_text (num_unit lo hi) s e -> ~ inner_last e).
    { intros s e Hi Hl. destruct Hi as [s e (n0 & -> & _)|s a t b Ha Hb|s a t b u c Ha Hb Hc].
      - inv Hl.
      - apply NU in Ha. apply NU in Hb. inv Hl; congruence.
      - apply NU in Ha. apply NU in Hb. apply NU in Hc. inv Hl; congruence. }
    assert (NM : forall t es, more_text (num_unit lo hi) t es -> Forall (fun e => ~ inner_last e) es).
    { intros t es Hm. induction Hm; constructor; eauto. }
    intros s e Hf Hl. destruct Hf.
    - eapply NI; eassumption.
    - inv Hl. match goal with H : In _ _ |- _ => destruct H as [<-|H] end.
      + eapply NI; eassumption.
      + match goal with H : more_text _ _ _ |- _ => apply NM in H; rewrite Forall_forall in H; eapply H; eassumption end.
    - match goal with H : num_unit _ _ _ _ |- _ => apply NU in H end. inv Hl. congruence.
    - inv Hl. }
  repeat split; try (eapply field_shape; [|eassumption]; eauto using unit_shape_num, unit_shape_dow); eapply NL; eassumption.
Qed.
Example C36_example :
  let e := ListExpr [RangeExpr (ValueExpr 10) (ValueExpr 30) (ValueExpr 7); ValueExpr 3] in
  shape_field e /\ ~ zero_step e /\ ~ inner_last e /\ visit (mk_env 24 59) e = Some true /\
  visit (mk_env 25 59) e = Some false /\ visit (mk_env 3 59) e = Some true.
Proof.
  cbn zeta. split.
  { apply sf_list. constructor; [apply si_step; constructor|]. constructor; [apply si_unit; constructor|constructor]. }
  repeat split; try (vm_compute; reflexivity).
  - intros H. inv H. match goal with H : In _ _ |- _ => destruct H as [<-|[<-|[]]] end;
      match goal with H : has_step _ _ |- _ => inv H end.
  - intros H. inv H. match goal with H : In _ _ |- _ => destruct H as [<-|[<-|[]]] end;
      match goal with H : inner_last _ |- _ => inv H end.
Qed.
Print Assumptions C36_last_in_range_refuted.
Print Assumptions C36_field_membership_partial.
Print Assumptions C36_inner_last_never.
Print Assumptions C36_accepted_shapes.

(** ** C37 *)
(** A valid point in time. *)
Definition valid_time (t : dtime) : Prop :=
  (1 <= dt_month t <= 12)%N /\ (1 <= dt_day t)%N /\ (Z.of_N (dt_day t) <= days_in_month (dt_year t) (dt_month t))%Z /\
  (dt_hour t <= 23)%N /\ (dt_minute t <= 59)%N /\ (1 <= dt_weekday t <= 7)%N.
(** The intended meaning of an expression; [w] is the value the fifth field is compared with. *)
Definition matches_with (w : N) (t : dtime) (mins hours days months dows : cexpr) : Prop :=
  field_has 59 mins (dt_minute t) /\ field_has 23 hours (dt_hour t) /\
  field_has (Z.to_N (days_in_month (dt_year t) (dt_month t))) days (dt_day t) /\
  field_has 12 months (dt_month t) /\ field_has 7 dows w.
Definition matches (t : dtime) := matches_with (dt_weekday t) t.
Definition good (e : cexpr) : Prop := shape_field e /\ ~ zero_step e /\ ~ inner_last e.

(** Full statement: ceval t (Cron ...) = Some true <-> matches t ... .  False in both directions. *)
Theorem C37_weekday_refuted :
  exists txt mins hours days months dows t1 t2,
    cron_parse txt = Success (Cron mins hours days months dows) (length txt) /\
    good mins /\ good hours /\ good days /\ good months /\ good dows /\ valid_time t1 /\ valid_time t2 /\
    matches t1 mins hours days months dows /\ ceval t1 (Cron mins hours days months dows) = Some false /\
    ~ matches t2 mins hours days months dows /\ ceval t2 (Cron mins hours days months dows) = Some true.
Proof.
  (* Sunday 2021-01-03 00:30 and Saturday 2021-01-02 00:01 *)
  exists (bs "* * * * 1"), AnyValueExpr, AnyValueExpr, AnyValueExpr, AnyValueExpr, (ValueExpr 1),
    (mk_dtime 2021 1 3 0 30 1), (mk_dtime 2021 1 2 0 1 7).
  assert (G : good AnyValueExpr). { split; [apply sf_any|]. split; intros H; inv H. }
  assert (G1 : good (ValueExpr 1)). { split; [repeat constructor|]. split; intros H; inv H. }
  split; [vm_compute; reflexivity|]. do 5 (split; [assumption|]).
  split; [unfold valid_time; cbn; lia|]. split; [unfold valid_time; cbn; lia|].
  split; [unfold matches, matches_with; repeat split; try apply fh_any; apply fh_unit; constructor|].
  split; [vm_compute; reflexivity|]. split; [|vm_compute; reflexivity].
  intros (_ & _ & _ & _ & H). inv H. match goal with H : unit_value _ _ _ |- _ => inv H end.
Qed.
(** What is computed: the fifth field is compared with the minute. *)
Theorem C37_eval_exact : forall t mins hours days months dows,
  valid_time t -> good mins -> good hours -> good days -> good months -> good dows ->
  exists r, ceval t (Cron mins hours days months dows) = Some r /\
    (r = true <-> matches_with (dt_minute t) t mins hours days months dows).
Proof.
  intros t mins hours days months dows Ht (A1 & A2 & A3) (B1 & B2 & B3) (C1 & C2 & C3) (D1 & D2 & D3) (E1 & E2 & E3).
  unfold ceval. destruct Ht as (Hm & _). rewrite get_days_correct by exact Hm.
  destruct (visit_field (dt_minute t) 59 A1 A2 A3) as (r1 & -> & R1).
  destruct (visit_field (dt_hour t) 23 B1 B2 B3) as (r2 & -> & R2).
  destruct (visit_field (dt_day t) (Z.to_N (days_in_month (dt_year t) (dt_month t))) C1 C2 C3) as (r3 & -> & R3).
  destruct (visit_field (dt_month t) 12 D1 D2 D3) as (r4 & -> & R4).
  destruct (visit_field (dt_minute t) 7 E1 E2 E3) as (r5 & -> & R5).
  cbn [obind]. eexists. split; [reflexivity|]. unfold matches_with. rewrite !andb_true_iff. tauto.
Qed.
(** Hence the intended meaning holds whenever the fifth field is [*].  Missing: any other fifth field. *)
Theorem C37_eval_partial : forall t mins hours days months,
  valid_time t -> good mins -> good hours -> good days -> good months ->
  (ceval t (Cron mins hours days months AnyValueExpr) = Some true <-> matches t mins hours days months AnyValueExpr) /\
  (ceval t (Cron mins hours days months AnyValueExpr) = Some false <-> ~ matches t mins hours days months AnyValueExpr).
Proof.
  intros t mins hours days months Ht A B C D.
  assert (G : good AnyValueExpr). { split; [apply sf_any|]. split; intros H; inv H. }
  destruct (C37_eval_exact Ht A B C D G) as (r & -> & Hr).
  assert (E : matches t mins hours days months AnyValueExpr <->
              matches_with (dt_minute t) t mins hours days months AnyValueExpr).
  { unfold matches, matches_with. split; intros H; repeat split; try tauto; apply fh_any. }
  rewrite E, <- Hr. destruct r; split; split; intros; try congruence; tauto.
Qed.
(** The month lengths used for the day field (L is the last day). *)
Theorem C37_month_length : forall y m, (1 <= m <= 12)%N -> get_days_from_month y m = days_in_month y m.
Proof. exact get_days_correct. Qed.
Example C37_example :
  valid_time (mk_dtime 2024 2 29 23 59 5) /\
  exists e, cron_parse (bs "*/59 23 29 2 *") = Success e 14 /\ ceval (mk_dtime 2024 2 29 23 59 5) e = Some true.
Proof. split; [unfold valid_time; cbn; lia|]. eexists. split; vm_compute; reflexivity. Qed.
Print Assumptions C37_weekday_refuted.
Print Assumptions C37_eval_exact.
Print Assumptions C37_eval_partial.
Print Assumptions C37_month_length.

(** ** C38 *)
(** Full statement: forall accepted expressions and times, ceval t e <> None.  False. *)
Theorem C38_eval_panics_refuted : exists txt e, cron_parse txt = Success e (length txt) /\ forall t, ceval t e = None.
Proof.
  exists (bs "*/0 * * * *"). eexists. split; [vm_compute; reflexivity|]. intros t. reflexivity.
Qed.
Lemma visit_total : forall env e, shape_field e -> ~ zero_step e -> visit env e <> None.
Proof.
  intros env e He Hz. destruct env as [now max].
  assert (HI : forall e, shape_item e -> ~ zero_step e -> visit (mk_env now max) e <> None).
  { clear. intros e He Hz. destruct He as [e He|a b Ha Hb|a b c Ha Hb Hc].
    - destruct He; discriminate.
    - destruct Ha; [destruct Hb|]; discriminate.
    - destruct Ha; [destruct Hb; [destruct Hc|]|]; try discriminate. cbn [visit].
      unfold step_any. match goal with |- context [(?k =? 0)%N] => destruct (N.eqb_spec k 0) as [->|] end; [|discriminate].
      exfalso. apply Hz. constructor. }
  destruct He as [e He|l Hs|e He|].
  - now apply HI.
  - rewrite visit_list. destruct (any_panic_spec (visit (mk_env now max)) l) as (r & -> & _); [|discriminate].
    intros x Hx. apply HI; [now apply (proj1 (Forall_forall _ _) Hs)|].
    intros H. apply Hz. eapply hs_list; eassumption.
  - destruct He as [s|]; [|discriminate]. cbn [visit]. unfold step_any.
    destruct (N.eqb_spec s 0) as [->|]; [|discriminate]. exfalso. apply Hz. constructor.
  - discriminate.
Qed.
Lemma within_step : forall lo hi e, within lo hi e -> (1 <= lo)%N -> ~ zero_step e.
Proof.
  intros lo hi e Hw Hlo Hz. unfold zero_step in Hz. remember (ValueExpr 0) as z. unfold within in Hw.
  assert (In 0%N (numbers e)).
  { clear Hw. induction Hz; subst; cbn.
    - apply in_or_app. right. now left.
    - apply in_or_app. right. apply in_or_app. right. now left.
    - apply in_flat_map. eauto. }
  rewrite Forall_forall in Hw. apply Hw in H. lia.
Qed.
(** Only a zero step in the minute or hour field can make the evaluation panic; everything else returns.  Missing: texts
    with such a step. *)
Theorem C38_eval_returns_partial : forall txt e n t, cron_parse txt = Success e n ->
  exists mins hours days months dows, e = Cron mins hours days months dows /\
    (ceval t e = None -> zero_step mins \/ zero_step hours).
Proof.
  intros txt e n t H. pose proof (C36_accepted_shapes _ H) as (mins & hours & days & months & dows & -> & S1 & S2 & S3 & S4 & S5 & _).
  destruct (C35_values_in_range _ H) as (a & b & c & d & f & E & _ & _ & W3 & W4 & W5). inv E.
  exists a, b, c, d, f. split; [reflexivity|]. intros Hn. unfold ceval in Hn.
  assert (K : forall env e, shape_field e -> visit env e = None -> has_step (ValueExpr 0) e \/ ~ has_step (ValueExpr 0) e ->
    zero_step e).
  { intros env e He Hv [Hz|Hz]; [exact Hz|]. exfalso. now apply (visit_total env He Hz). }
  assert (Dec : forall e, shape_field e -> has_step (ValueExpr 0) e \/ ~ has_step (ValueExpr 0) e).
  { clear. assert (DI : forall e, shape_item e -> has_step (ValueExpr 0) e \/ ~ has_step (ValueExpr 0) e).
    { intros e He. destruct He as [e He|a b Ha Hb|a b c Ha Hb Hc].
      - right. intros H. destruct He; inv H.
      - right. intros H. inv H.
      - destruct Hc as [s|]; [|right; intros H; inv H].
        destruct (N.eq_dec s 0) as [->|Hs]; [left; constructor|right; intros H; inv H; congruence]. }
    intros e He. destruct He as [e He|l Hs|e He|].
    - auto.
    - induction Hs as [|x l Hx Hs IH].
      + right. intros H. inv H. match goal with H : In _ [] |- _ => destruct H end.
      + destruct (DI x Hx) as [D|D]; [left; eapply hs_list; [now left|exact D]|].
        destruct IH as [IH|IH].
        * left. inv IH. eapply hs_list; [right; eassumption|assumption].
        * right. intros H. inv H. match goal with H : In _ (_ :: _) |- _ => destruct H as [<-|H] end; [tauto|].
          apply IH. eapply hs_list; eassumption.
    - destruct He as [s|]; [|right; intros H; inv H].
      destruct (N.eq_dec s 0) as [->|Hs]; [left; constructor|right; intros H; inv H; congruence].
    - right. intros H. inv H. }
  destruct (visit (mk_env (dt_minute t) 59) a) eqn:V1; [|left; eapply K; eauto].
  destruct (visit (mk_env (dt_hour t) 23) b) eqn:V2; [|right; eapply K; eauto]. cbn [obind] in Hn.
  exfalso.
  destruct (visit (mk_env (dt_day t) _) c) eqn:V3; cbn [obind] in Hn.
  2: { eapply visit_total; [exact S3|eapply within_step; [exact W3|lia]|exact V3]. }
  destruct (visit (mk_env (dt_month t) 12) d) eqn:V4; cbn [obind] in Hn.
  2: { eapply visit_total; [exact S4|eapply within_step; [exact W4|lia]|exact V4]. }
  destruct (visit (mk_env (dt_minute t) 7) f) eqn:V5; cbn [obind] in Hn; [discriminate|].
  eapply visit_total; [exact S5|eapply within_step; [exact W5|lia]|exact V5].
Qed.
Example C38_example :
  exists e, cron_parse (bs "0,1-5/2 */2 1-31/31 * 1-5/7") = Success e 27 /\
    forall t, ceval t e <> None.
Proof.
  eexists. split; [vm_compute; reflexivity|]. intros t H.
  destruct (@C38_eval_returns_partial (bs "0,1-5/2 */2 1-31/31 * 1-5/7") _ 27 t eq_refl)
    as (a & b & c & d & f & E & K). inv E.
  destruct (K H) as [Z|Z]; unfold zero_step in Z; inv Z.
  match goal with H : In _ _ |- _ => destruct H as [<-|[<-|[]]] end; match goal with H : has_step _ _ |- _ => inv H end.
Qed.
Print Assumptions C38_eval_panics_refuted.
Print Assumptions C38_eval_returns_partial.

(** ** The iterator (C39, C40, C41) *)
(** The times the search looks at: whole minutes after the start. *)
Definition grid (t0 : Z) (k : nat) : Z := (t0 + Z.of_nat k * minute)%Z.
Definition on_grid (t0 t : Z) : Prop := exists k, t = grid t0 k.
(** [first_match spec b r]: r is the first time from b on that matches. *)
Definition first_match (spec : Z -> option bool) (b r : Z) : Prop :=
  on_grid b r /\ spec r = Some true /\ forall t, on_grid b t -> (t < r)%Z -> spec t = Some false.

Lemma grid_0 : forall b, grid b 0 = b.
Proof. intros b. unfold grid. lia. Qed.
Lemma grid_S : forall b k, grid (b + minute) k = grid b (S k).
Proof. intros b k. unfold grid, minute. lia. Qed.
Lemma grid_plus : forall b j k, grid (grid b j) k = grid b (j + k).
Proof. intros b j k. unfold grid, minute. lia. Qed.
Lemma grid_lt : forall b j k, (grid b j < grid b k)%Z <-> j < k.
Proof. intros b j k. unfold grid, minute. lia. Qed.
Lemma grid_le : forall b j k, (grid b j <= grid b k)%Z <-> j <= k.
Proof. intros b j k. unfold grid, minute. lia. Qed.

Lemma proceed_spec : forall spec tmax fuel c,
  match proceed_next spec tmax fuel (mk_iter c (c + minute)) with
  | IYield it' item => exists k, item = Some (grid c k) /\ it' = mk_iter (grid c k) (grid c k + minute) /\
      spec (grid c k) = Some true /\ (forall j, j < k -> spec (grid c j) = Some false) /\
      (k = 0 \/ (grid c k + minute <= tmax)%Z)
  | IPanic => exists k, (forall j, j < k -> spec (grid c j) = Some false) /\
      (spec (grid c k) = None \/ (spec (grid c k) = Some false /\ tmax < grid c k + 2 * minute)%Z)
  | IDiverge => forall j, j < fuel -> spec (grid c j) = Some false /\ (grid c j + 2 * minute <= tmax)%Z
  end.
Proof.
  intros spec tmax fuel. induction fuel as [|fuel IH]; intros c; [intros j Hj; lia|]. cbn [proceed_next it_curr it_next].
  destruct (spec c) as [[|]|] eqn:E.
  - exists 0. rewrite grid_0. repeat split; auto. intros j Hj. lia.
  - unfold add_minute. destruct (Z.leb_spec (c + minute + minute) tmax) as [Ht|Ht].
    + specialize (IH (c + minute)%Z). destruct (proceed_next spec tmax fuel _) as [it' item| |] eqn:P.
      * destruct IH as (k & H1 & H2 & H3 & H4 & H5). rewrite grid_S in *. exists (S k). repeat split; auto.
        -- intros [|j] Hj; [now rewrite grid_0|]. rewrite <- grid_S. apply H4. lia.
        -- right. destruct H5 as [->|H5]; [|exact H5]. rewrite <- grid_S, grid_0. lia.
      * destruct IH as (k & H1 & H2). rewrite grid_S in *. exists (S k). split; [|exact H2].
        intros [|j] Hj; [now rewrite grid_0|]. rewrite <- grid_S. apply H1. lia.
      * intros [|j] Hj; [rewrite grid_0; split; [exact E|unfold minute in *; lia]|]. rewrite <- grid_S. apply IH. lia.
    + exists 0. split; [intros j Hj; lia|]. right. rewrite grid_0. split; [exact E|]. unfold minute in *. lia.
  - exists 0. split; [intros j Hj; lia|]. left. now rewrite grid_0.
Qed.

Lemma first_match_k : forall spec b k, spec (grid b k) = Some true ->
  (forall j, j < k -> spec (grid b j) = Some false) -> first_match spec b (grid b k).
Proof.
  intros spec b k H1 H2. split; [now exists k|]. split; [exact H1|]. intros t (j & ->) Hj. apply H2. now apply grid_lt in Hj.
Qed.
Lemma first_match_unique : forall spec b r r', first_match spec b r -> first_match spec b r' -> r = r'.
Proof.
  intros spec b r r' (H1 & H2 & H3) (K1 & K2 & K3).
  destruct (Z.lt_trichotomy r r') as [L|[L|L]]; [|exact L|].
  - rewrite (K3 r H1 L) in H2. discriminate.
  - rewrite (H3 r' K1 L) in K2. discriminate.
Qed.

(** One call of next(). *)
Lemma inext_yield : forall spec tmax fuel end_ it it' item, inext_fuel spec tmax fuel end_ it = IYield it' item ->
  (exists r, item = Some r /\ it' = mk_iter r (r + minute) /\ first_match spec (it_next it) r /\ (r + minute <= tmax)%Z /\
     match end_ with None => True | Some e => (it_next it <= e)%Z end)
  \/ (exists e, end_ = Some e /\ (e < it_next it)%Z /\ item = None /\ it' = mk_iter (it_next it) (it_next it + minute)).
Proof.
  intros spec tmax fuel end_ [c b] it' item. unfold inext_fuel, add_minute. cbn [it_next it_curr].
  destruct (Z.leb_spec (b + minute) tmax) as [Ht|Ht]; [|discriminate].
  assert (P : proceed_next spec tmax fuel (mk_iter b (b + minute)) = IYield it' item ->
    exists r, item = Some r /\ it' = mk_iter r (r + minute) /\ first_match spec b r /\ (r + minute <= tmax)%Z).
  { intros H. pose proof (proceed_spec spec tmax fuel b) as S. rewrite H in S. destruct S as (k & -> & -> & S1 & S2 & S3).
    exists (grid b k). repeat split; auto; try now exists k.
    - intros t (j & ->) Hj. apply S2. now apply grid_lt in Hj.
    - destruct S3 as [->|S3]; [rewrite grid_0; exact Ht|exact S3]. }
  destruct end_ as [e|].
  - destruct (Z.leb_spec b e) as [He|He].
    + intros H. left. destruct (P H) as (r & A1 & A2 & A3 & A4). exists r. auto.
    + intros H. inv H. right. exists e. auto.
  - intros H. left. destruct (P H) as (r & A1 & A2 & A3 & A4). exists r. auto.
Qed.

Lemma on_grid_step : forall b r t, on_grid b r -> on_grid (r + minute) t -> on_grid b t /\ (r < t)%Z.
Proof.
  intros b r t (j & ->) (k & ->). split; [exists (j + S k)|]; unfold grid, minute; lia.
Qed.
Lemma on_grid_after : forall b r t, on_grid b r -> on_grid b t -> (r < t)%Z -> on_grid (r + minute) t.
Proof.
  intros b r t (j & ->) (k & ->) H. apply grid_lt in H. exists (k - j - 1). unfold grid, minute. lia.
Qed.

Theorem C39_iterator_order : forall spec tmax fuel start n items it',
  take_items spec tmax fuel None n (mk_iter start start) = Some (items, it') ->
  exists ts, items = map Some ts /\ length ts = n /\ StronglySorted Z.lt ts /\
    (forall t, In t ts -> on_grid start t /\ spec t = Some true) /\
    (forall t u, In u ts -> (t <= u)%Z -> on_grid start t -> spec t = Some true -> In t ts).
Proof.
  intros spec tmax fuel start n items it'.
  assert (G : forall n it items it', take_items spec tmax fuel None n it = Some (items, it') ->
    exists ts, items = map Some ts /\ length ts = n /\ StronglySorted Z.lt ts /\
      (forall t, In t ts -> on_grid (it_next it) t /\ spec t = Some true) /\
      (forall t u, In u ts -> (t <= u)%Z -> on_grid (it_next it) t -> spec t = Some true -> In t ts)).
  { clear. induction n as [|n IH]; intros it items it'; cbn [take_items].
    - intros H. inv H. exists []. repeat split; try constructor; intros; contradiction.
    - destruct (inext_fuel spec tmax fuel None it) as [it1 item| |] eqn:E; try discriminate.
      destruct (take_items spec tmax fuel None n it1) as [[items' it2]|] eqn:E2; [|discriminate]. intros H. inv H.
      apply inext_yield in E. destruct E as [(r & -> & -> & (F1 & F2 & F3) & F4 & _)|(e & A & _)]; [|discriminate].
      apply IH in E2. destruct E2 as (ts & -> & L & S & M & K). cbn [it_next] in *.
      exists (r :: ts). split; [reflexivity|]. split; [cbn; now rewrite L|]. split.
      { constructor; [exact S|]. apply Forall_forall. intros t Ht. apply M in Ht. destruct Ht as [Ht _].
        now apply (on_grid_step F1) in Ht. }
      split.
      + intros t [<-|Ht]; [now split|]. apply M in Ht. destruct Ht as [Ht1 Ht2].
        split; [now apply (on_grid_step F1) in Ht1|exact Ht2].
      + intros t u Hu Htu Ht Hs. destruct (Z.lt_trichotomy t r) as [C|[C|C]].
        * rewrite (F3 t Ht C) in Hs. discriminate.
        * left. congruence.
        * right. destruct Hu as [<-|Hu]; [lia|]. apply (K t u Hu Htu); [|exact Hs]. exact (on_grid_after F1 Ht C). }
  intros H. exact (G _ _ _ _ H).
Qed.
(** The expressions of the grammar over the UTC calendar. *)
Definition cron_spec (e : cexpr) (t : Z) : option bool := ceval (utc t) e.
Example C39_example :
  exists e it, cron_parse (bs "*/20 0 29 2 *") = Success e 13 /\
    take_items (cron_spec e) 2000000000000 100 None 3 (mk_iter 1709164740000 1709164740000) =
      Some ([Some 1709164800000; Some 1709166000000; Some 1709167200000]%Z, it).
Proof. do 2 eexists. split; [vm_compute; reflexivity|]. vm_compute. reflexivity. Qed.
Print Assumptions C39_iterator_order.

(** The call always comes to an end within the representable times: either with a result or with the date overflow panic. *)
Theorem C41_inext_ends : forall spec tmax end_ it, inext spec tmax end_ it <> IDiverge.
Proof.
  intros spec tmax end_ [c b]. unfold inext, inext_fuel, add_minute. cbn [it_next it_curr].
  destruct (Z.leb_spec (b + minute) tmax) as [Ht|Ht]; [|discriminate].
  assert (P : proceed_next spec tmax (iter_fuel tmax b) (mk_iter b (b + minute)) <> IDiverge).
  { intros H. pose proof (proceed_spec spec tmax (iter_fuel tmax b) b) as S. rewrite H in S.
    specialize (S (Z.to_nat (tmax - b))). destruct S as [_ S]; [unfold iter_fuel; lia|].
    unfold grid, minute in *. lia. }
  destruct end_ as [e|]; [|exact P]. destruct (b <=? e)%Z; [exact P|discriminate].
Qed.
(** The fuel does not matter: any fuel that suffices gives the result of [inext]. *)
Lemma proceed_fuel : forall spec tmax f g it, proceed_next spec tmax f it <> IDiverge -> f <= g ->
  proceed_next spec tmax g it = proceed_next spec tmax f it.
Proof.
  intros spec tmax f. induction f as [|f IH]; intros [|g] it H L; cbn [proceed_next] in *; try congruence; try lia.
  destruct (spec (it_curr it)) as [[|]|]; try reflexivity. destruct (add_minute tmax (it_next it)); [|reflexivity].
  apply IH; [exact H|lia].
Qed.
Theorem C41_fuel_irrelevant : forall spec tmax f end_ it, inext_fuel spec tmax f end_ it <> IDiverge ->
  inext_fuel spec tmax f end_ it = inext spec tmax end_ it.
Proof.
  intros spec tmax f end_ it H. pose proof (C41_inext_ends spec tmax end_ it) as K. unfold inext in *.
  assert (G : forall f g it, proceed_next spec tmax f it <> IDiverge -> proceed_next spec tmax g it <> IDiverge ->
    proceed_next spec tmax f it = proceed_next spec tmax g it).
  { clear. intros f g it A B. destruct (Nat.le_ge_cases f g); [symmetry|]; now apply proceed_fuel. }
  unfold inext_fuel in *. destruct (add_minute tmax (it_next it)); [|reflexivity].
  destruct end_ as [e|]; [|now apply G]. destruct (_ <=? e)%Z; [now apply G|reflexivity].
Qed.

(** ** C40 *)
(** Full statement: with an end, every yielded time is at most the end.  False: the end is only checked before the
    search. *)
Theorem C40_end_refuted :
  exists txt e start end_ it' r, cron_parse txt = Success e (length txt) /\ (start <= end_ < r)%Z /\
    inext (cron_spec e) 2000000000000 (Some end_) (mk_iter start start) = IYield it' (Some r).
Proof.
  (* every full hour, from 2021-01-01 00:01 to 00:10, gives 01:00 *)
  exists (bs "0 * * * *"). do 1 eexists. exists 1609459260000%Z, 1609459800000%Z. do 2 eexists.
  split; [vm_compute; reflexivity|]. split; [|rewrite <- (@C41_fuel_irrelevant _ _ 100); [vm_compute; reflexivity|]].
  - lia.
  - vm_compute. discriminate.
Qed.
(** What holds.  Missing from the full statement: the last time may lie beyond the end. *)
Theorem C40_end_partial : forall spec tmax fuel e start n items it',
  take_items spec tmax fuel (Some e) n (mk_iter start start) = Some (items, it') ->
  exists ts m, items = map Some ts ++ repeat None m /\ length ts + m = n /\ StronglySorted Z.lt ts /\
    (forall t, In t ts -> on_grid start t /\ spec t = Some true) /\
    (forall t, In t (removelast ts) -> (t <= e)%Z) /\
    (* once it stops, no match up to the end has been missed *)
    (m <> 0 -> forall t, on_grid start t -> spec t = Some true -> (t <= e)%Z -> In t ts) /\
    (* a time beyond the end appears only if the search started at or before the end and there was no match left *)
    (forall t, In t ts -> (e < t)%Z -> forall u, on_grid start u -> spec u = Some true -> (u <= e)%Z -> In u ts) /\
    (* it cannot happen if there is a match less than a minute before the end *)
    ((exists t, on_grid start t /\ spec t = Some true /\ (t <= e < t + minute)%Z) -> forall t, In t ts -> (t <= e)%Z).
Proof.
  intros spec tmax fuel e start n items it'.
  assert (G : forall n it items it', take_items spec tmax fuel (Some e) n it = Some (items, it') ->
    exists ts m, items = map Some ts ++ repeat None m /\ length ts + m = n /\ StronglySorted Z.lt ts /\
      (forall t, In t ts -> on_grid (it_next it) t /\ spec t = Some true) /\
      (forall t, In t (removelast ts) -> (t <= e)%Z) /\
      (m <> 0 -> forall t, on_grid (it_next it) t -> spec t = Some true -> (t <= e)%Z -> In t ts) /\
      (forall t, In t ts -> (e < t)%Z -> forall u, on_grid (it_next it) u -> spec u = Some true -> (u <= e)%Z -> In u ts) /\
      (ts <> [] -> (it_next it <= e)%Z) /\
      ((exists t, on_grid (it_next it) t /\ spec t = Some true /\ (t <= e < t + minute)%Z) -> forall t, In t ts -> (t <= e)%Z)).
  { clear. induction n as [|n IH]; intros it items it'; cbn [take_items].
    - intros H. inv H. exists [], 0. repeat split; try constructor; cbn; intros; try contradiction; congruence.
    - destruct (inext_fuel spec tmax fuel (Some e) it) as [it1 item| |] eqn:E; try discriminate.
      destruct (take_items spec tmax fuel (Some e) n it1) as [[items' it2]|] eqn:E2; [|discriminate]. intros H. inv H.
      apply inext_yield in E. destruct E as [(r & -> & -> & (F1 & F2 & F3) & F4 & F5)|(e' & A & A1 & -> & ->)].
      + apply IH in E2. destruct E2 as (ts & m & -> & L & S & M & B & N & K & St & P). cbn [it_next] in *.
        exists (r :: ts), m. split; [reflexivity|]. split; [cbn; lia|].
        split.
        { constructor; [exact S|]. apply Forall_forall. intros t Ht. apply M in Ht. destruct Ht as [Ht _].
          now apply (on_grid_step F1) in Ht. }
        split.
        { intros t [<-|Ht]; [now split|]. apply M in Ht. destruct Ht as [Ht1 Ht2].
          split; [now apply (on_grid_step F1) in Ht1|exact Ht2]. }
        split.
        { destruct ts as [|t1 ts]; [intros t []|]. change (removelast (r :: t1 :: ts)) with (r :: removelast (t1 :: ts)).
          intros t [<-|Ht]; [|now apply B]. assert (Hx : t1 :: ts <> []) by discriminate. apply St in Hx. unfold minute in Hx. lia. }
        assert (R : forall u, on_grid (it_next it) u -> spec u = Some true -> u = r \/ (on_grid (r + minute) u /\ r < u)%Z).
        { intros u Hu Hs. destruct (Z.lt_trichotomy u r) as [C|[C|C]]; [|now left|].
          - rewrite (F3 u Hu C) in Hs. discriminate.
          - right. split; [exact (on_grid_after F1 Hu C)|exact C]. }
        split; [|split; [|split]].
        * intros Hm t Ht Hs Hte. destruct (R t Ht Hs) as [->|[Ht' _]]; [now left|]. right. now apply N.
        * intros t [<-|Ht] Hte u Hu Hs Hue.
          -- destruct (R u Hu Hs) as [->|[_ Hr]]; [now left|]. lia.
          -- destruct (R u Hu Hs) as [->|[Hu' _]]; [now left|]. right. now apply (K t).
        * intros _. exact F5.
        * intros (t & Ht & Hs & Hte) u. destruct (R t Ht Hs) as [->|[Ht' Hr]].
          -- intros [<-|Hu]; [lia|]. exfalso. destruct ts as [|t1 ts]; [contradiction|].
             assert (Hx : t1 :: ts <> []) by discriminate. apply St in Hx. lia.
          -- intros [<-|Hu]; [lia|]. apply P; [|exact Hu]. exists t. auto.
      + inv A. apply IH in E2. destruct E2 as (ts & m & -> & L & S & M & B & N & K & St & P). cbn [it_next] in *.
        assert (ts = []). { destruct ts as [|t1 ts]; [reflexivity|]. exfalso. assert (Hx : t1 :: ts <> []) by discriminate.
          apply St in Hx. unfold minute in Hx. lia. }
        subst ts. exists [], (Datatypes.S m). cbn [map app length] in *. split; [reflexivity|]. split; [lia|].
        split; [constructor|]. split; [intros t []|]. split; [intros t []|].
        assert (Z0 : forall t, on_grid (it_next it) t -> (t <= e')%Z -> False).
        { intros t (k & ->) H. unfold grid, minute in H. lia. }
        split; [intros _ t Ht _ Hte; exfalso; eauto|]. split; [intros t []|]. split; [congruence|intros _ t []]. }
  intros H. destruct (G _ _ _ _ H) as (ts & m & A1 & A2 & A3 & A4 & A5 & A6 & A7 & _ & A8).
  exists ts, m. repeat (split; [assumption|]). exact A8.
Qed.
(** Exactly when a single call goes beyond the end. *)
Theorem C40_overshoot_iff : forall spec tmax fuel e it it' r,
  inext_fuel spec tmax fuel (Some e) it = IYield it' (Some r) ->
  ((e < r)%Z <-> forall t, on_grid (it_next it) t -> (t <= e)%Z -> spec t = Some false).
Proof.
  intros spec tmax fuel e it it' r H. apply inext_yield in H.
  destruct H as [(r' & E & _ & (F1 & F2 & F3) & _ & _)|(e' & _ & _ & E & _)]; [|discriminate]. inv E.
  split.
  - intros Hr t Ht Hte. apply F3; [exact Ht|lia].
  - intros H. destruct (Z.lt_ge_cases e r') as [L|L]; [exact L|]. rewrite (H r' F1 L) in F2. discriminate.
Qed.
Example C40_example :
  exists e it, cron_parse (bs "*/2 * * * *") = Success e 11 /\
    take_items (cron_spec e) 2000000000000 100 (Some 1609459440000%Z) 4 (mk_iter 1609459260000 1609459260000) =
      Some ([Some 1609459320000; Some 1609459440000; None; None]%Z, it).
Proof. do 2 eexists. split; [vm_compute; reflexivity|]. vm_compute. reflexivity. Qed.
Print Assumptions C40_end_refuted.
Print Assumptions C40_end_partial.
Print Assumptions C40_overshoot_iff.

(** ** C41 *)
(** next() returns a time iff a match exists (before the end of representable time), and it is the first one. *)
Theorem C41_returns_iff_match : forall spec tmax it r,
  ((exists it', inext spec tmax None it = IYield it' (Some r)) <-> first_match spec (it_next it) r /\ (r + minute <= tmax)%Z).
Proof.
  intros spec tmax it r. split.
  - intros (it' & H). apply inext_yield in H. destruct H as [(r' & E & _ & F & T & _)|(e & A & _)]; [|discriminate]. inv E. auto.
  - intros [F T]. destruct (inext spec tmax None it) as [it' item| |] eqn:H.
    + pose proof H as H'. apply inext_yield in H'. destruct H' as [(r' & -> & _ & F' & _)|(e & A & _)]; [|discriminate].
      rewrite (first_match_unique F F'). eauto.
    + exfalso. destruct it as [c b]. unfold inext, inext_fuel, add_minute in H. cbn [it_next] in *.
      destruct F as ((k & ->) & F2 & F3).
      destruct (Z.leb_spec (b + minute) tmax) as [Ht|Ht]; [|unfold grid, minute in *; lia].
      pose proof (proceed_spec spec tmax (iter_fuel tmax b) b) as S. rewrite H in S. destruct S as (j & S1 & S2).
      destruct S2 as [S2|[S2 S3]].
      { destruct (Nat.lt_trichotomy j k) as [C|[C|C]].
        - assert (X : spec (grid b j) = Some false) by (apply F3; [now exists j|unfold grid, minute; lia]). congruence.
        - subst j. congruence.
        - rewrite (S1 k C) in F2. discriminate. }
      destruct (Nat.lt_trichotomy j k) as [C|[C|C]].
      * unfold grid, minute in *. lia.
      * subst j. congruence.
      * rewrite (S1 k C) in F2. discriminate.
    + exfalso. eapply C41_inext_ends; exact H.
Qed.
(** There is a first match iff there is a match at all. *)
Lemma first_match_exists : forall spec b, (forall t, spec t <> None) ->
  (exists t, on_grid b t /\ spec t = Some true) -> exists r, first_match spec b r.
Proof.
  intros spec b Tot (t & (k & ->) & H). revert H. induction k as [k IH] using lt_wf_ind. intros H.
  assert (D : (exists j, j < k /\ spec (grid b j) = Some true) \/ forall j, j < k -> spec (grid b j) = Some false).
  { clear - Tot. induction k as [|k IH]; [right; intros j Hj; lia|]. destruct IH as [(j & Hj & E)|IH].
    - left. exists j. split; [lia|exact E].
    - destruct (spec (grid b k)) as [[|]|] eqn:E; [left; exists k; split; [lia|exact E]| |now apply Tot in E].
      right. intros j Hj. destruct (Nat.eq_dec j k) as [->|]; [exact E|]. apply IH. lia. }
  destruct D as [(j & Hj & E)|D]; [now apply (IH j)|]. exists (grid b k). now apply first_match_k.
Qed.
Theorem C41_terminates_total : forall spec it, (forall t, spec t <> None) ->
  ((exists tmax fuel it' r, inext_fuel spec tmax fuel None it = IYield it' (Some r)) <->
   exists t, on_grid (it_next it) t /\ spec t = Some true).
Proof.
  intros spec it Tot. split.
  - intros (tmax & fuel & it' & r & H). apply inext_yield in H.
    destruct H as [(r' & _ & _ & (F1 & F2 & _) & _)|(e & A & _)]; [|discriminate]. eauto.
  - intros H. destruct (@first_match_exists spec (it_next it) Tot H) as (r & F). exists (r + minute)%Z.
    destruct (proj2 (@C41_returns_iff_match spec (r + minute) it r)) as (it' & E); [split; [exact F|lia]|].
    unfold inext in E. eauto.
Qed.
(** For every specification, panicking or not: a call returns iff some minute matches and no minute before it panics. *)
Theorem C41_terminates_iff : forall spec it,
  ((exists tmax fuel it' r, inext_fuel spec tmax fuel None it = IYield it' (Some r)) <->
   exists t, on_grid (it_next it) t /\ spec t = Some true /\
     forall t', on_grid (it_next it) t' -> (t' < t)%Z -> spec t' <> None).
Proof.
  intros spec it. split.
  - intros (tmax & fuel & it' & r & H). apply inext_yield in H.
    destruct H as [(r' & _ & _ & (F1 & F2 & F3) & _)|(e & A & _)]; [|discriminate].
    exists r'. split; [exact F1|]. split; [exact F2|]. intros t' Ht Hl. now rewrite (F3 t' Ht Hl).
  - intros (t & G & M & Q).
    assert (Hf : exists r, first_match spec (it_next it) r).
    { destruct G as (k & ->). revert M Q. induction k as [k IH] using lt_wf_ind. intros M Q.
      assert (D : (exists j, j < k /\ spec (grid (it_next it) j) = Some true) \/
                  forall j, j < k -> spec (grid (it_next it) j) = Some false).
      { assert (Q' : forall j, j < k -> spec (grid (it_next it) j) <> None).
        { intros j Hj. apply Q; [now exists j|unfold grid, minute; lia]. }
        clear - Q'. induction k as [|k IH]; [right; intros j Hj; lia|].
        destruct IH as [(j & Hj & E)|IH]; [intros j Hj; apply Q'; lia| |].
        - left. exists j. split; [lia|exact E].
        - destruct (spec (grid (it_next it) k)) as [[|]|] eqn:E; [left; exists k; split; [lia|exact E]| |].
          + right. intros j Hj. destruct (Nat.eq_dec j k) as [->|]; [exact E|]. apply IH. lia.
          + exfalso. apply (Q' k); [lia|exact E]. }
      destruct D as [(j & Hj & E)|D].
      - apply (IH j Hj E). intros t' Ht Hl. apply Q; [exact Ht|]. revert Hl. unfold grid, minute. lia.
      - exists (grid (it_next it) k). now apply first_match_k. }
    destruct Hf as (r & F). exists (r + minute)%Z.
    destruct (proj2 (@C41_returns_iff_match spec (r + minute) it r)) as (it' & E); [split; [exact F|lia]|].
    unfold inext in E. eauto.
Qed.
(** When it does not return it runs on for ever over unbounded time exactly when every minute from the start on is
    refused, without a panic. *)
Theorem C41_runs_on_iff : forall spec it,
  ((forall tmax fuel, (grid (it_next it) (S fuel) <= tmax)%Z -> inext_fuel spec tmax fuel None it = IDiverge) <->
   forall t, on_grid (it_next it) t -> spec t = Some false).
Proof.
  intros spec it. split.
  - intros H t (k & ->). specialize (H (grid (it_next it) (S (S k))) (S k) (Z.le_refl _)).
    destruct it as [c b]. unfold inext_fuel, add_minute in H. cbn [it_next] in *.
    destruct (Z.leb_spec (b + minute) (grid b (S (S k)))) as [Ht|Ht]; [|unfold grid, minute in *; lia].
    pose proof (proceed_spec spec (grid b (S (S k))) (S k) b) as Sp. rewrite H in Sp. apply Sp. lia.
  - intros H tmax fuel Hl. destruct it as [c b]. unfold inext_fuel, add_minute. cbn [it_next] in *.
    destruct (Z.leb_spec (b + minute) tmax) as [Ht|Ht]; [|unfold grid, minute in *; lia].
    clear c. cut (forall c, (grid c (S fuel) <= tmax)%Z -> (forall j, spec (grid c j) = Some false) ->
      proceed_next spec tmax fuel (mk_iter c (c + minute)) = IDiverge).
    { intros X. apply X; [exact Hl|]. intros j. apply H. now exists j. }
    clear. induction fuel as [|fuel IH]; intros c Hl H; [reflexivity|]. cbn [proceed_next it_curr it_next].
    pose proof (H 0) as H0. rewrite grid_0 in H0. rewrite H0. unfold add_minute.
    destruct (Z.leb_spec (c + minute + minute) tmax) as [Ht|Ht]; [|unfold grid, minute in *; lia].
    apply IH; [unfold grid, minute in *; lia|]. intros j. rewrite grid_S. apply H.
Qed.
(** The statement itself, without the proviso about panics, is false: at 04:00 the list of hours reaches its step of zero
    and panics, though 05:00 matches. *)
Theorem C41_terminates_iff_refuted : exists e start t,
  cron_parse (bs "0 5,1-3/0 * * *") = Success e 15 /\ on_grid start t /\ cron_spec e t = Some true /\
  forall tmax fuel it' item, inext_fuel (cron_spec e) tmax fuel None (mk_iter start start) <> IYield it' item.
Proof.
  do 3 eexists. split; [vm_compute; reflexivity|]. split; [exists 60; reflexivity|].
  match goal with |- cron_spec ?e _ = _ /\ _ => set (e0 := e) end.
  instantiate (1 := 1609473600000%Z). split; [vm_compute; reflexivity|].
  intros tmax fuel it' item H. apply inext_yield in H. destruct H as [(r' & _ & _ & ((k & F1) & F2 & F3) & _)|(x & A & _)]; [|discriminate].
  cbn [it_next] in *. assert (N0 : cron_spec e0 1609473600000 = None) by (vm_compute; reflexivity).
  destruct k as [|k]; [rewrite grid_0 in F1; subst r'; congruence|].
  assert (X : cron_spec e0 1609473600000 = Some false).
  { apply F3; [exists 0; now rewrite grid_0|]. subst r'. unfold grid, minute. lia. }
  congruence.
Qed.
(** 30 February: over every valid calendar, no number of steps gives a result; with the bounded dates of chrono the call
    ends in the overflow panic. *)
Theorem C41_february_30_never : forall cal : Z -> dtime, (forall t, valid_time (cal t)) ->
  forall e, cron_parse (bs "0 0 30 2 *") = Success e 10 ->
  forall tmax fuel it, match inext_fuel (fun t => ceval (cal t) e) tmax fuel None it with IYield _ _ => False | _ => True end
    /\ inext (fun t => ceval (cal t) e) tmax None it = IPanic.
Proof.
  intros cal Hc e He. vm_compute in He. inv He.
  match goal with |- context [fun t => ceval (cal t) ?x] => set (spec := fun t => ceval (cal t) x) end.
  assert (F : forall t, spec t = Some false).
  { intros t. unfold spec, ceval. specialize (Hc t). destruct Hc as (Hm & _ & Hd & _). cbn [visit env_now env_max obind].
    f_equal. destruct (N.eqb_spec (dt_day (cal t)) 30) as [Ed|]; [|now rewrite ?andb_false_r].
    destruct (N.eqb_spec (dt_month (cal t)) 2) as [Em|]; [|now rewrite ?andb_false_r].
    exfalso. rewrite Ed, Em in Hd. cbn in Hd. destruct (leap _); lia. }
  intros tmax fuel it. split.
  - destruct (inext_fuel spec tmax fuel None it) as [it' item| |] eqn:E; try exact I.
    apply inext_yield in E. destruct E as [(r' & _ & _ & (F1 & F2 & _) & _)|(x & A & _)]; [|discriminate].
    rewrite F in F2. discriminate.
  - destruct (inext spec tmax None it) as [it' item| |] eqn:E; [|reflexivity|now apply C41_inext_ends in E].
    apply inext_yield in E. destruct E as [(r' & _ & _ & (F1 & F2 & _) & _)|(x & A & _)]; [|discriminate].
    rewrite F in F2. discriminate.
Qed.
Lemma utc_valid : forall t, valid_time (utc t).
Proof.
  intros t. unfold utc, valid_time. pose proof (civil_ok (t / 86400000 + 719468)) as C.
  destruct (civil_from_days (t / 86400000 + 719468)) as [[y m] d]. cbn [dt_year dt_month dt_day dt_hour dt_minute dt_weekday].
  destruct C as (C1 & C2 & C3 & _). pose proof (Z.mod_pos_bound t 86400000 ltac:(lia)) as B.
  assert (0 <= t mod 86400000 / 3600000 < 24)%Z by (split; [apply Z.div_pos; lia|apply Z.div_lt_upper_bound; lia]).
  pose proof (Z.mod_pos_bound (t mod 86400000 / 60000) 60 ltac:(lia)).
  pose proof (Z.mod_pos_bound (t / 86400000 + 4) 7 ltac:(lia)). repeat split; try assumption; lia.
Qed.
(** Over unbounded time the search for 30 February never ends. *)
Example C41_runs_on_example : exists e, cron_parse (bs "0 0 30 2 *") = Success e 10 /\
  forall start tmax fuel, (grid start (S fuel) <= tmax)%Z ->
    inext_fuel (cron_spec e) tmax fuel None (mk_iter start start) = IDiverge.
Proof.
  eexists. split; [vm_compute; reflexivity|]. match goal with |- context [cron_spec ?x] => set (e := x) end.
  intros start. apply (proj2 (C41_runs_on_iff (cron_spec e) (mk_iter start start))). intros t _.
  unfold cron_spec, ceval, e. pose proof (utc_valid t) as (Hm & _ & Hd & _). cbn [visit env_now env_max obind].
  f_equal. destruct (N.eqb_spec (dt_day (utc t)) 30) as [Ed|]; [|now rewrite ?andb_false_r].
  destruct (N.eqb_spec (dt_month (utc t)) 2) as [Em|]; [|now rewrite ?andb_false_r].
  exfalso. rewrite Ed, Em in Hd. cbn in Hd. destruct (leap _); lia.
Qed.
(** Non-vacuity: UTC is such a calendar; and an expression that does match is found. *)
Example C41_example :
  (exists e, cron_parse (bs "0 0 30 2 *") = Success e 10) /\
  (forall t, valid_time (utc t)) /\
  exists e it, cron_parse (bs "0 0 29 2 *") = Success e 10 /\ (forall t, cron_spec e t <> None) /\
    inext_fuel (cron_spec e) 2000000000000 1500 None (mk_iter 1709092800000 1709092800000) = IYield it (Some 1709164800000%Z).
Proof.
  split; [eexists; vm_compute; reflexivity|]. split; [exact utc_valid|]. do 2 eexists.
  split; [vm_compute; reflexivity|]. split; [intros t; discriminate|]. vm_compute. reflexivity.
Qed.
Print Assumptions C41_inext_ends.
Print Assumptions C41_fuel_irrelevant.
Print Assumptions C41_returns_iff_match.
Print Assumptions C41_terminates_total.
Print Assumptions C41_terminates_iff.
Print Assumptions C41_runs_on_iff.
Print Assumptions C41_terminates_iff_refuted.
Print Assumptions C41_february_30_never.
