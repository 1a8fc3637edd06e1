(** The parsers of the crond crate with the nesting and the number of their calls: crond/src/cron_parser.rs as in Cron.v, over the combinators
    of Measure.v.  Where the source has [cache()] there is one closure more (cache_parsers_impl.rs 13-37), counted as if it found nothing in its
    map: with a find it would call fewer. *)
From Verif Require Import Base Core Comb Closure RepFacts Hoare Runs Text Cron Measure MeasureUri MeasureCount MeasureUriCount.
Set Implicit Arguments.
Local Open Scope string_scope.
Local Open Scope nat_scope.
Local Open Scope list_scope.

(** cache_parsers_impl.rs 13-37 *)
Definition m_cache {A} (g : mparser A) : mparser A := m_one (fun p => p) g.
Lemma er_cache : forall A g (p : parser N A), erases g p -> erases (m_cache g) p.
Proof. intros A g p H. now apply (@er_one A A (fun p => p)). Qed.

(** cron_parser.rs 5-12. *)
Definition mc_min_digit : mparser cexpr :=
  m_cache (m_or (m_or (m_attempt (m_map_panic (m_and (m_elm_in (chr "1") (chr "5")) m_elm_digit) digit2))
             (m_attempt (m_map_panic (m_skip_left (m_elm (chr "0")) m_elm_digit) digit1)))
       (m_map_panic m_elm_digit digit1)).
(** cron_parser.rs 14-24. *)
Definition mc_hour_digit : mparser cexpr :=
  m_cache (m_or (m_or (m_or (m_attempt (m_map_panic (m_and (m_elm (chr "2")) (m_elm_in (chr "0") (chr "3"))) digit2))
                   (m_attempt (m_map_panic (m_and (m_elm (chr "1")) m_elm_digit) digit2)))
             (m_attempt (m_map_panic (m_skip_left (m_elm (chr "0")) m_elm_digit) digit1)))
       (m_log_map (m_map_panic m_elm_digit digit1) (fun _ => tt))).
(** cron_parser.rs 26-36. *)
Definition mc_day_digit : mparser cexpr :=
  m_cache (m_or (m_or (m_or (m_attempt (m_map_panic (m_and (m_elm (chr "3")) (m_elm_of (bs "01"))) digit2))
                   (m_attempt (m_map_panic (m_and (m_elm_of (bs "12")) m_elm_digit) digit2)))
             (m_attempt (m_map_panic (m_skip_left (m_elm (chr "0")) m_elm_digit_1_9) digit1)))
       (m_map_panic m_elm_digit_1_9 digit1)).
(** cron_parser.rs 38-45. *)
Definition mc_month_digit : mparser cexpr :=
  m_cache (m_or (m_or (m_attempt (m_map_panic (m_and (m_elm (chr "1")) (m_elm_of (bs "012"))) digit2))
             (m_attempt (m_map_panic (m_skip_left (m_elm (chr "0")) m_elm_digit_1_9) digit1)))
       (m_map_panic m_elm_digit_1_9 digit1)).
(** cron_parser.rs 47-57. *)
Definition mc_day_of_week_digit : mparser cexpr :=
  let day name n := m_attempt (m_map (m_tag (bs name)) (fun _ => ValueExpr n)) in
  m_cache (m_or (m_or (m_or (m_or (m_or (m_or (m_or (day "SUN" 1%N) (day "MON" 2%N)) (day "TUE" 3%N)) (day "WED" 4%N))
                         (day "THU" 5%N)) (day "FRI" 6%N)) (day "SAT" 7%N))
       (m_map (m_elm (chr "L")) (fun _ => LastValueExpr))).
(** cron_parser.rs 59-61. *)
Definition mc_day_of_week_text : mparser cexpr := m_cache (m_map_panic (m_elm_in (chr "1") (chr "7")) digit1).
(** cron_parser.rs 63-65, 67-69, 71-79, 81-86, 88-95. *)
Definition mc_asterisk : mparser cexpr := m_cache (m_map (m_elm (chr "*")) (fun _ => AnyValueExpr)).
Definition mc_per (p : mparser cexpr) : mparser cexpr := m_skip_left (m_elm (chr "/")) p.
Definition mc_asterisk_per (p : mparser cexpr) : mparser cexpr :=
  m_cache (m_attempt (m_map (m_and mc_asterisk (mc_per p)) (fun x => PerExpr (fst x) (snd x)))).
Definition mc_range_per (p : mparser cexpr) : mparser cexpr :=
  m_map (m_opt (mc_per p)) (fun e => match e with None => NoOp | Some s => s end).
Definition mc_list (p : mparser cexpr) : mparser cexpr :=
  m_attempt (m_map (m_many1_sep p (m_elm (chr ","))) (fun e => match e with [x] => x | _ => ListExpr e end)).
(** cron_parser.rs 97-107, 109-113. *)
Definition mc_range (x : mparser cexpr) : mparser cexpr :=
  m_attempt (m_map (m_and (m_and (m_skip_right x (m_elm (chr "-"))) x) (mc_range_per x))
    (fun e => RangeExpr (fst (fst e)) (snd (fst e)) (snd e))).
Definition mc_digit_instruction (x : mparser cexpr) : mparser cexpr :=
  m_or (m_or (mc_list (m_or (mc_range x) x)) (mc_asterisk_per x)) mc_asterisk.
(** cron_parser.rs 121. *)
Definition mc_dow : mparser cexpr := m_or mc_day_of_week_text mc_day_of_week_digit.
(** cron_parser.rs 115-129. *)
Definition mc_instruction : mparser cexpr :=
  let sp := m_elm (chr " ") in
  m_map
    (m_and (m_skip_right (m_and (m_skip_right (m_and (m_skip_right (m_and (m_skip_right
      (mc_digit_instruction mc_min_digit) sp) (mc_digit_instruction mc_hour_digit)) sp)
      (mc_digit_instruction mc_day_digit)) sp) (mc_digit_instruction mc_month_digit)) sp)
      (mc_digit_instruction mc_dow))
    (fun '((((mins, hours), days), months), day_of_weeks) => Cron mins hours days months day_of_weeks).
(** cron_parser.rs 134-138. *)
Definition mc_cron : mparser cexpr := m_skip_right mc_instruction (m_leaf p_end).

(** ** The outcomes are those of Cron.v *)
Ltac er := repeat first [er_step | apply er_cache | apply er_leaf].
Lemma er_min : erases mc_min_digit min_digit.
Proof. unfold mc_min_digit, min_digit. er. Qed.
Lemma er_hour : erases mc_hour_digit hour_digit.
Proof. unfold mc_hour_digit, hour_digit. er. Qed.
Lemma er_day : erases mc_day_digit day_digit.
Proof. unfold mc_day_digit, day_digit. er. Qed.
Lemma er_month : erases mc_month_digit month_digit.
Proof. unfold mc_month_digit, month_digit. er. Qed.
Lemma er_dow : erases mc_dow dow.
Proof. unfold mc_dow, dow, mc_day_of_week_text, day_of_week_text, mc_day_of_week_digit, day_of_week_digit. cbv zeta. er. Qed.
Lemma er_digit_instruction : forall g p, erases g p -> erases (mc_digit_instruction g) (digit_instruction p).
Proof. intros g p H. unfold mc_digit_instruction, digit_instruction, mc_list, clist, mc_range, crange, mc_range_per, range_per, mc_asterisk_per, asterisk_per, mc_asterisk, asterisk, mc_per, per. er. Qed.
Lemma er_cron : erases mc_cron (p_skip_right instruction p_end).
Proof.
  pose proof (er_digit_instruction er_min). pose proof (er_digit_instruction er_hour). pose proof (er_digit_instruction er_day). pose proof (er_digit_instruction er_month). pose proof (er_digit_instruction er_dow).
  unfold mc_cron, mc_instruction, instruction. cbv zeta. er.
Qed.

(** ** The number of calls *)
Ltac sm := repeat first [eassumption | apply sm_leaf | apply sm_or | apply sm_opt | apply sm_two | apply sm_one | apply sm_count | apply sm_rep].
Ltac small_by := eapply sm_le; [sm|apply Nat.leb_le; reflexivity].
Lemma wi_cache : forall A j (g : mparser A), within j g -> within j (m_cache g).
Proof. intros A j g H. apply wi_one; [|exact H]. intros o inp off v n E. now exists v. Qed.
Lemma wi_log_map : forall A B j (g : mparser A) (f : outcome N A -> B), within j g -> within j (m_log_map g f).
Proof. intros A B j g f H. apply wi_one; [|exact H]. intros o inp off v n E. exists v. exact E. Qed.
Ltac wi := repeat first [eassumption | apply wi_elm_pred_ref | apply wi_elm_ref_of | apply wi_seqN | apply wi_tag
  | apply wi_cache | apply wi_log_map | apply wi_attempt | apply wi_map_panic | apply wi_collect | apply wi_filter_not | apply wi_map | apply wi_skip_left | apply wi_skip_right | apply wi_and
  | eapply wi_opt | apply wi_or | apply wi_many1 | eapply wi_rep0 | eapply wi_many1_sep].
Ltac within_by := eapply wi_le; [wi|cbn; lia].
Lemma sm_min : small 20 mc_min_digit.
Proof. small_by. Qed.
Lemma sm_hour : small 29 mc_hour_digit.
Proof. small_by. Qed.
Lemma sm_day : small 30 mc_day_digit.
Proof. small_by. Qed.
Lemma sm_month : small 22 mc_month_digit.
Proof. small_by. Qed.
Lemma sm_dow : small 37 mc_dow.
Proof. small_by. Qed.
Lemma wi_min : within 1 mc_min_digit.
Proof. within_by. Qed.
Lemma wi_hour : within 1 mc_hour_digit.
Proof. within_by. Qed.
Lemma wi_day : within 1 mc_day_digit.
Proof. within_by. Qed.
Lemma wi_month : within 1 mc_month_digit.
Proof. within_by. Qed.
Lemma wi_dow : within 1 mc_dow.
Proof. within_by. Qed.

Lemma re_list : forall c x, small c x -> within 1 x -> rest (c + 2) (c + 5) (mc_list x).
Proof.
  intros c x H W. assert (S0 : small 2 (m_elm (chr ","))) by small_by. assert (W0 : within 0 (m_elm (chr ","))) by within_by.
  eapply re_le; [apply re_one, re_one; eapply re_rep with (a := 0) (b := c) (c := 2); [exact W|now apply ln_small|split; assumption]|lia|lia].
Qed.
Lemma re_field : forall c x, small c x -> within 1 x -> rest (4 * c + 18) (5 * c + 38) (mc_digit_instruction x).
Proof.
  intros c x H W. unfold mc_digit_instruction.
  assert (S1 : small (4 * c + 16) (m_or (mc_range x) x)) by (eapply sm_le; [sm|lia]).
  assert (W1 : within 1 (m_or (mc_range x) x)) by within_by.
  assert (S2 : small (c + 11) (mc_asterisk_per x)) by (eapply sm_le; [sm|lia]).
  assert (S3 : small 4 mc_asterisk) by small_by.
  eapply re_le; [apply re_or; [apply re_or; [apply (re_list S1 W1)|apply re_small, S2]|apply re_small, S3]|lia|lia].
Qed.
Lemma wi_field : forall x, within 1 x -> within 0 (mc_digit_instruction x).
Proof. intros x W. unfold mc_digit_instruction, mc_list, mc_range, mc_range_per, mc_asterisk_per, mc_asterisk, mc_per. within_by. Qed.
Lemma re_cron : rest 642 899 mc_cron.
Proof.
  pose proof (re_field sm_min wi_min) as R1. pose proof (re_field sm_hour wi_hour) as R2. pose proof (re_field sm_day wi_day) as R3. pose proof (re_field sm_month wi_month) as R4. pose proof (re_field sm_dow wi_dow) as R5.
  pose proof (wi_field wi_min) as W1. pose proof (wi_field wi_hour) as W2. pose proof (wi_field wi_day) as W3. pose proof (wi_field wi_month) as W4. pose proof (wi_field wi_dow) as W5.
  assert (S0 : small 2 (m_elm (chr " "))) by small_by. assert (W0 : within 1 (m_elm (chr " "))) by within_by. apply re_small in S0.
  unfold mc_cron, mc_instruction. cbv zeta.
  eapply re_le; [repeat match goal with
    | |- within _ _ => progress wi
    | |- rest _ _ _ => first [eassumption | apply (re_small (@sm_leaf _ _)) | eapply re_two | apply re_one]
    end|apply Nat.leb_le; reflexivity|apply Nat.leb_le; reflexivity].
Qed.

(** ** The depth *)
Lemma fl_sep : forall A B i j (g : mparser A) (h : mparser B) r, flat i g -> flat j h -> flat (S (Nat.max i j)) (m_rep g r (Some h)).
Proof. intros A B i j g h r H1 H2. now apply (@fl_rep A B i j g r (Some h)). Qed.
Ltac fl := repeat first [apply fl_leaf | apply fl_or | apply fl_opt | apply fl_two | apply fl_one | apply fl_sep | apply fl_rep0].
Lemma fl_cron : flat 32 mc_cron.
Proof. eapply fl_le; [fl|apply Nat.leb_le; reflexivity]. Qed.
