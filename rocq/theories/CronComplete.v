(** Completeness of the cron grammar: every text of the notation is accepted, in full, with the expression it denotes. *)
From Verif Require Import Base Core Comb Closure RepFacts LitFacts Runs Cron CronSpec.
Set Implicit Arguments.
Local Open Scope string_scope.
Local Open Scope nat_scope.
Local Open Scope list_scope.

(** The remaining input is empty or starts with an element of [f]. *)
Definition starts (f : N -> Prop) (l : list N) : Prop := match l with [] => True | x :: _ => f x end.
(** What may follow a unit, an item, a field. *)
Definition after_unit (x : N) : Prop := x = chr " " \/ x = chr "," \/ x = chr "-" \/ x = chr "/".
Definition after_item (x : N) : Prop := x = chr " " \/ x = chr ",".
Definition after_field (x : N) : Prop := x = chr " ".
Definition not_unit (x : N) : Prop := after_unit x \/ x = chr "*".

Lemma starts_imp : forall (f g : N -> Prop) l, (forall x, f x -> g x) -> starts f l -> starts g l.
Proof. intros f g [|x l] H; cbn; auto. Qed.

Section Field.
Variable x : parser N cexpr.
Variable U : list N -> cexpr -> Prop.
Hypothesis Hacc : forall s e rest, U s e -> starts after_unit rest -> acc x s rest e.
Hypothesis Hrej : forall l, starts not_unit l -> rej x l false.

Lemma a_per : forall s e rest, U s e -> starts after_unit rest -> acc (per x) (bs "/" ++ s) rest e.
Proof. intros s e rest H Hr. unfold per. eapply a_skip_left; [apply a_elm|now apply Hacc]. Qed.
Lemma r_per : forall l, starts (fun y => y <> chr "/") l -> rej (per x) l false.
Proof. intros l H. unfold per. apply r_skip_left1. apply r_elm. now destruct l. Qed.

Lemma a_item : forall s e rest, item_text U s e -> starts after_item rest -> acc (p_or (crange x) x) s rest e.
Proof.
  intros s e rest H Hr. assert (Hu : starts after_unit rest) by (eapply starts_imp; [|exact Hr]; cbv [after_item after_unit]; tauto).
  assert (Hs : starts (fun y => y <> chr "/") rest) by (eapply starts_imp; [|exact Hr]; intros y [->| ->]; discriminate).
  destruct H as [s e H|s a t b Ha Hb|s a t b u c Ha Hb Hc].
  - apply a_or2; [|now apply Hacc]. unfold crange. eapply r_attempt. apply r_map. apply r_and1. apply r_and1.
    eapply r_skip_right2; [apply (@Hacc _ _ _ H Hu)|]. apply r_elm. destruct rest; [exact I|]. destruct Hr as [->| ->]; discriminate.
  - apply a_or1. unfold crange. apply a_attempt.
    eapply a_map_eq with (v := ((a, b), NoOp)); [|reflexivity].
    replace (s ++ bs "-" ++ t) with (((s ++ bs "-") ++ t) ++ []) by (now rewrite app_nil_r, <- app_assoc).
    eapply a_and; [eapply a_and; [eapply a_skip_right; [apply Hacc; [exact Ha|cbn; unfold after_unit; tauto]|apply a_elm]|now apply Hacc]|].
    unfold range_per. eapply a_map_eq; [eapply a_opt_none; now apply r_per|reflexivity].
  - apply a_or1. unfold crange. apply a_attempt.
    eapply a_map_eq with (v := ((a, b), c)); [|reflexivity].
    replace (s ++ bs "-" ++ t ++ bs "/" ++ u) with (((s ++ bs "-") ++ t) ++ (bs "/" ++ u)) by (now rewrite <- !app_assoc).
    eapply a_and; [eapply a_and; [eapply a_skip_right; [apply Hacc; [exact Ha|cbn; unfold after_unit; tauto]|apply a_elm]|apply Hacc; [exact Hb|cbn; unfold after_unit; tauto]]|].
    unfold range_per. eapply a_map_eq; [apply a_opt; exact (@a_per _ _ _ Hc Hu)|reflexivity].
Qed.
Lemma r_item : forall l, starts not_unit l -> rej (p_or (crange x) x) l false.
Proof.
  intros l H. apply r_or; [|now apply Hrej]. unfold crange. eapply r_attempt. apply r_map. apply r_and1. apply r_and1. apply r_skip_right1. now apply Hrej.
Qed.

Lemma more_starts : forall t es rest, more_text U t es -> starts after_field rest -> starts after_item (t ++ rest).
Proof.
  intros t es rest H Hr. destruct H; cbn; [|right; reflexivity|right; reflexivity].
  eapply starts_imp; [|exact Hr]. unfold after_field, after_item. tauto.
Qed.
(** The items after the first, and possibly a comma that is not followed by one. *)
Lemma more_chain : forall t es rest, more_text U t es -> starts after_field rest ->
  exists s d, t = s ++ d /\ (d = [] \/ d = bs ",") /\ schain (p_or (crange x) x) (p_elm (chr ",")) s (d ++ rest) es.
Proof.
  intros t es rest H Hr. induction H as [| |s e t es He Ht IH].
  - exists [], []. split; [reflexivity|]. split; [now left|constructor].
  - exists [], (bs ","). split; [reflexivity|]. split; [now right|constructor].
  - destruct IH as (s' & d & -> & Hd & Hc). exists (bs "," ++ s ++ s'), d. rewrite <- !app_assoc. split; [reflexivity|]. split; [exact Hd|].
    eapply schain_cons; [apply a_elm| |discriminate|exact Hc]. apply a_item; [exact He|]. rewrite app_assoc. eapply more_starts; eauto.
Qed.
Lemma a_items : forall s e t es rest, item_text U s e -> more_text U t es -> starts after_field rest ->
  acc (p_many1_sep (p_or (crange x) x) (p_elm (chr ","))) (s ++ t) rest (e :: es).
Proof.
  intros s e t es rest He Ht Hr. unfold p_many1_sep. assert (F : acc (p_or (crange x) x) s (t ++ rest) e) by (apply a_item; [exact He|eapply more_starts; eauto]).
  destruct (@more_chain _ _ _ Ht Hr) as (s' & d & -> & [->| ->] & Hc).
  - rewrite app_nil_r in *. cbn [app] in Hc. eapply a_repeat_sep; [exact F|exact Hc| |lia].
    apply r_elm. destruct rest; [exact I|]. cbn in Hr. rewrite Hr. discriminate.
  - rewrite <- app_assoc in F. eapply a_repeat_sep_dangling; [exact F|exact Hc|apply a_elm| |lia].
    apply r_item. eapply starts_imp; [|exact Hr]. unfold after_field, not_unit, after_unit. tauto.
Qed.
Lemma a_field : forall s e rest, field_text U s e -> starts after_field rest -> acc (digit_instruction x) s rest e.
Proof.
  intros s e rest H Hr. assert (Hu : starts after_unit rest) by (eapply starts_imp; [|exact Hr]; unfold after_field, after_unit; tauto).
  assert (C : forall l, rej (clist (p_or (crange x) x)) (chr "*" :: l) false).
  { intros l. unfold clist. eapply r_attempt. apply r_map. eapply r_many1_sep. apply r_item. right. reflexivity. }
  unfold digit_instruction. destruct H as [s e t He Ht|s e t e' es He Ht|s e He|].
  - apply a_or1, a_or1. unfold clist. apply a_attempt. eapply a_map_eq; [exact (@a_items _ _ _ _ _ He Ht Hr)|reflexivity].
  - apply a_or1, a_or1. unfold clist. apply a_attempt. eapply a_map_eq; [exact (@a_items _ _ _ _ _ He Ht Hr)|reflexivity].
  - apply a_or1. apply a_or2; [apply C|]. unfold asterisk_per. apply a_attempt. eapply a_map_eq with (v := (AnyValueExpr, e)); [|reflexivity].
    change (bs "*/" ++ s) with (bs "*" ++ (bs "/" ++ s)). eapply a_and; [|now apply a_per]. unfold asterisk. eapply a_map_eq; [apply a_elm|reflexivity].
  - apply a_or2.
    + apply r_or; [apply C|]. unfold asterisk_per. eapply r_attempt. apply r_map. change (bs "*" ++ rest) with ([chr "*"] ++ rest). eapply r_and2.
      * unfold asterisk. apply a_map. apply a_elm.
      * apply r_per. eapply starts_imp; [|exact Hr]. intros y ->. discriminate.
    + unfold asterisk. eapply a_map_eq; [apply a_elm|reflexivity].
Qed.
End Field.

(** *** The units *)
Lemma digit1_val : forall d, (d <= 9)%N -> digit1 (48 + d) = Some (ValueExpr d).
Proof.
  intros d H. unfold digit1, u8_of_char. rewrite N.mod_small by lia. unfold u8_sub. destruct (N.leb_spec 48 (48 + d)); [|lia].
  cbn [obind]. do 2 f_equal. lia.
Qed.
Lemma digit2_val : forall a b, (a <= 9)%N -> (b <= 9)%N -> digit2 (48 + a, 48 + b)%N = Some (ValueExpr (10 * a + b)).
Proof.
  intros a b Ha Hb. unfold digit2, u8_of_char. cbn [fst snd]. rewrite !N.mod_small by lia. unfold u8_sub, u8_mul, u8_add.
  destruct (N.leb_spec 48 (48 + a)); [|lia]. cbn [obind]. destruct (N.leb_spec ((48 + a - 48) * 10) 255); [|lia]. cbn [obind].
  destruct (N.leb_spec ((48 + a - 48) * 10 + (48 + b)) 255); [|lia]. cbn [obind]. destruct (N.leb_spec 48 ((48 + a - 48) * 10 + (48 + b))); [|lia].
  cbn [obind]. do 2 f_equal. lia.
Qed.

(** [p] reads one element of the class [f]. *)
Definition cls (p : parser N N) (f : N -> bool) : Prop :=
  (forall y rest, f y = true -> acc p [y] rest y) /\ (forall l, hd_not f l -> rej p l false).
Lemma c_in : forall a b, cls (p_elm_in a b) (range_in_contains a b).
Proof. intros a b. split; intros; [now apply a_elm_of_set|now apply r_elm_of_set]. Qed.
Lemma c_digit : cls p_elm_digit is_ascii_digit.
Proof. split; intros; [now apply a_elm_pred|now apply r_elm_pred]. Qed.
Lemma c_elm : forall c, cls (p_elm c) (N.eqb c).
Proof.
  intros c. split.
  - intros y rest H. apply N.eqb_eq in H. subst. apply a_elm.
  - intros l H. apply r_elm. destruct l; [exact I|]. cbn in H. apply N.eqb_neq in H. congruence.
Qed.
Lemma c_of : forall s, cls (p_elm_of s) (fun y => existsb (N.eqb y) s).
Proof.
  intros s. split.
  - intros y rest H. apply a_elm_of. apply existsb_exists in H. destruct H as (z & Hz & E). apply N.eqb_eq in E. now subst.
  - intros l H. apply r_elm_of. destruct l; [exact I|]. cbn in H. intros Hi. rewrite (proj2 (existsb_exists _ _)) in H; [discriminate|]. eexists. split; [exact Hi|apply N.eqb_refl].
Qed.
Lemma c_digit19 : cls p_elm_digit_1_9 (in_range 49 57).
Proof.
  split.
  - intros y rest H. unfold p_elm_digit_1_9, p_elm_digit_1_9_ref. apply a_map with (f := fun x => x). unfold p_filter_not. apply a_filter.
    + unfold in_range in H. apply andb_true_iff in H. rewrite !N.leb_le in H.
      apply a_elm_pred_ref. unfold is_ascii_digit, in_range. apply andb_true_iff. rewrite !N.leb_le. lia.
    + unfold in_range in H. apply andb_true_iff in H. rewrite !N.leb_le in H. unfold is_ascii_digit_zero. destruct (N.eqb_spec y 48); [lia|reflexivity].
  - intros l H. unfold p_elm_digit_1_9, p_elm_digit_1_9_ref. apply r_map with (f := fun x => x). unfold p_filter_not.
    destruct l as [|y l]; [apply r_filter; now apply r_elm_pred_ref|]. cbn in H.
    destruct (is_ascii_digit y) eqn:D; [|apply r_filter; now apply r_elm_pred_ref].
    change (y :: l) with ([y] ++ l). eapply r_filter_false; [now apply a_elm_pred_ref|]. unfold is_ascii_digit, in_range, is_ascii_digit_zero in *.
    apply andb_true_iff in D. rewrite !N.leb_le in D. apply andb_false_iff in H. rewrite !N.leb_gt in H. destruct (N.eqb_spec y 48); [reflexivity|lia].
Qed.

(** The alternatives of a unit: two digits, '0' and a digit, one digit. *)
Lemma a_two : forall p q f g a b rest, cls p f -> cls q g -> f (48 + a)%N = true -> g (48 + b)%N = true -> (a <= 9)%N -> (b <= 9)%N ->
  acc (p_attempt (p_map_panic (p_and p q) digit2)) [48 + a; 48 + b]%N rest (ValueExpr (10 * a + b)).
Proof.
  intros p q f g a b rest [Hp _] [Hq _] Ha Hb La Lb. apply a_attempt. eapply a_map_panic; [|now apply digit2_val].
  change [48 + a; 48 + b]%N with ([48 + a] ++ [48 + b])%N. apply a_and; auto.
Qed.
Lemma r_two1 : forall p q f g l, cls p f -> cls q g -> hd_not f l -> rej (p_attempt (p_map_panic (p_and p q) digit2)) l false.
Proof. intros p q f g l [_ Hp] _ H. eapply r_attempt. apply r_map_panic. apply r_and1. now apply Hp. Qed.
Lemma r_two2 : forall p q f g y l, cls p f -> cls q g -> hd_not g l -> rej (p_attempt (p_map_panic (p_and p q) digit2)) (y :: l) false.
Proof.
  intros p q f g y l [Ap Rp] [_ Hq] H. eapply r_attempt. apply r_map_panic. destruct (f y) eqn:E.
  - change (y :: l) with ([y] ++ l). eapply r_and2; [now apply Ap|now apply Hq].
  - apply r_and1. now apply Rp.
Qed.
Lemma a_zero : forall q g b rest, cls q g -> g (48 + b)%N = true -> (b <= 9)%N ->
  acc (p_attempt (p_map_panic (p_skip_left (p_elm (chr "0")) q) digit1)) [48; 48 + b]%N rest (ValueExpr b).
Proof.
  intros q g b rest [Hq _] Hb Lb. apply a_attempt. eapply a_map_panic; [|now apply digit1_val].
  change [48; 48 + b]%N with ([chr "0"] ++ [48 + b]%N). eapply a_skip_left; [apply a_elm|auto].
Qed.
Lemma r_zero1 : forall (q : parser N N) l, starts (fun y => y <> 48%N) l -> rej (p_attempt (p_map_panic (p_skip_left (p_elm (chr "0")) q) digit1)) l false.
Proof. intros q l H. eapply r_attempt. apply r_map_panic. apply r_skip_left1. apply r_elm. now destruct l. Qed.
Lemma r_zero2 : forall q g y l, cls q g -> hd_not g l -> rej (p_attempt (p_map_panic (p_skip_left (p_elm (chr "0")) q) digit1)) (y :: l) false.
Proof.
  intros q g y l [_ Hq] H. eapply r_attempt. apply r_map_panic. destruct (N.eq_dec y (chr "0")) as [->|Ne].
  - change (chr "0" :: l) with ([chr "0"] ++ l). eapply r_skip_left2; [apply a_elm|now apply Hq].
  - apply r_skip_left1. now apply r_elm.
Qed.
Lemma a_one : forall q g b rest, cls q g -> g (48 + b)%N = true -> (b <= 9)%N -> acc (p_map_panic q digit1) [48 + b]%N rest (ValueExpr b).
Proof. intros q g b rest [Hq _] Hb Lb. eapply a_map_panic; [|now apply digit1_val]. auto. Qed.
Lemma r_one : forall q g l, cls q g -> hd_not g l -> rej (p_map_panic q digit1) l false.
Proof. intros q g l [_ Hq] H. apply r_map_panic. now apply Hq. Qed.
Lemma a_log : forall A B (p : parser N A) (f : outcome N A -> B) s rest v, acc p s rest v -> acc (p_log_map p f) s rest v.
Proof. intros A B p f s rest v H. exact H. Qed.
Lemma r_log : forall A B (p : parser N A) (f : outcome N A -> B) l c, rej p l c -> rej (p_log_map p f) l c.
Proof. intros A B p f l c H. exact H. Qed.

(** No digit starts what follows a unit. *)
Lemma hd_not_starts : forall (f : N -> bool) l, (forall y, not_unit y -> f y = false) -> starts not_unit l -> hd_not f l.
Proof. intros f [|y l] H Hl; [exact I|]. now apply H. Qed.
Ltac seps := intros y Hy; repeat (destruct Hy as [Hy|Hy]); subst; reflexivity.
Lemma after_not : forall l, starts after_unit l -> starts not_unit l.
Proof. intros l. apply starts_imp. unfold not_unit. tauto. Qed.
Lemma not48 : forall l, starts not_unit l -> starts (fun y => y <> 48%N) l.
Proof. intros l. apply starts_imp. intros y Hy; repeat (destruct Hy as [Hy|Hy]); subst; discriminate. Qed.

Ltac small d := 
  destruct (N.eq_dec d 0) as [->|]; [|destruct (N.eq_dec d 1) as [->|]; [|destruct (N.eq_dec d 2) as [->|]; [|destruct (N.eq_dec d 3) as [->|];
  [|destruct (N.eq_dec d 4) as [->|]; [|destruct (N.eq_dec d 5) as [->|]; [|destruct (N.eq_dec d 6) as [->|]; [|destruct (N.eq_dec d 7) as [->|];
  [|destruct (N.eq_dec d 8) as [->|]; [|destruct (N.eq_dec d 9) as [->|]; [|lia]]]]]]]]]].
Lemma digit_cases : forall d, (d <= 9)%N -> In d [0; 1; 2; 3; 4; 5; 6; 7; 8; 9]%N.
Proof. intros d H. small d; cbn; tauto. Qed.

Ltac classes := first [apply c_in|apply c_digit|apply c_digit19|apply c_elm|apply c_of].
Ltac ok := vm_compute; reflexivity.
Ltac sep Hr := first [exact Hr|apply hd_not_starts; [seps|exact Hr]|now apply not48].
(** An alternative that accepts, one that rejects. *)
Ltac yes := repeat first [apply a_log];
  first [eapply a_two; [classes|classes|ok|ok|discriminate|discriminate]
        |eapply a_zero; [classes|ok|discriminate]
        |eapply a_one; [classes|ok|discriminate]].
Ltac no Hr := repeat first [apply r_log];
  first [eapply r_two1; [classes|classes|ok]|eapply r_two1; [classes|classes|sep Hr]
        |eapply r_two2; [classes|classes|ok]|eapply r_two2; [classes|classes|sep Hr]
        |apply r_zero1; discriminate|apply r_zero1; now apply not48
        |eapply r_zero2; [classes|ok]|eapply r_zero2; [classes|sep Hr]
        |eapply r_one; [classes|ok]|eapply r_one; [classes|sep Hr]].
Ltac alts Hr := first [apply a_or1; alts Hr|apply a_or2; [nos Hr|alts Hr]|yes]
with nos Hr := first [apply r_or; [nos Hr|nos Hr]|no Hr].

Ltac enum d H := apply digit_cases in H; cbn [In] in H; repeat (destruct H as [H|H]); [subst d|subst d|subst d|subst d|subst d|subst d|subst d|subst d|subst d|subst d|contradiction].
Ltac unit_case :=
  let n := fresh in let R := fresh in let D := fresh in
  intros s e rest (n & -> & R & D) Hr; apply after_not in Hr;
  destruct D as [d Hd|a b Ha Hb]; [enum d Hd|enum a Ha; enum b Hb]; first [exfalso; lia|alts Hr].
Lemma a_min : forall s e rest, num_unit 0 59 s e -> starts after_unit rest -> acc min_digit s rest e.
Proof. unit_case. Qed.
Lemma a_hour : forall s e rest, num_unit 0 23 s e -> starts after_unit rest -> acc hour_digit s rest e.
Proof. unit_case. Qed.
Lemma a_day : forall s e rest, num_unit 1 31 s e -> starts after_unit rest -> acc day_digit s rest e.
Proof. unit_case. Qed.
Lemma a_month : forall s e rest, num_unit 1 12 s e -> starts after_unit rest -> acc month_digit s rest e.
Proof. unit_case. Qed.
Lemma r_min : forall l, starts not_unit l -> rej min_digit l false.
Proof. intros l Hr. unfold min_digit. nos Hr. Qed.
Lemma r_hour : forall l, starts not_unit l -> rej hour_digit l false.
Proof. intros l Hr. unfold hour_digit. nos Hr. Qed.
Lemma r_day : forall l, starts not_unit l -> rej day_digit l false.
Proof. intros l Hr. unfold day_digit. nos Hr. Qed.
Lemma r_month : forall l, starts not_unit l -> rej month_digit l false.
Proof. intros l Hr. unfold month_digit. nos Hr. Qed.
Ltac tag_no := eapply r_attempt; apply r_map;
  first [apply r_tag; discriminate
        |let pre := fresh in intros pre; unfold p_tag, p_tag_by; rewrite input_at; cbn; eexists; reflexivity].
Lemma r_dow : forall l, starts not_unit l -> rej dow l false.
Proof.
  intros l H. assert (T : forall c s v, hd_not (N.eqb c) l -> rej (p_attempt (p_map (p_tag (c :: s)) (fun _ => ValueExpr v))) l false).
  { intros c s v K. eapply r_attempt. apply r_map. apply r_tag. destruct l; [exact I|]. cbn in K. apply N.eqb_neq in K. congruence. }
  unfold dow, day_of_week_digit, day_of_week_text. apply r_or.
  - eapply r_one; [apply c_in|]. sep H.
  - repeat apply r_or; try (apply T; sep H). apply r_map. apply (c_elm (chr "L")). sep H.
Qed.
Lemma a_dow : forall s e rest, dow_unit s e -> starts after_unit rest -> acc dow s rest e.
Proof.
  intros s e rest H Hr. unfold dow. destruct H as [(n & -> & Hn & ->)|H].
  - apply a_or1. unfold day_of_week_text. eapply a_one; [apply c_in| |lia]. unfold range_in_contains. apply andb_true_iff. rewrite !N.leb_le.
    change (chr "1") with 49%N. change (chr "7") with 55%N. lia.
  - unfold day_of_week_digit.
    assert (Y : forall nm v l, acc (p_attempt (p_map (p_tag (bs nm)) (fun _ => ValueExpr v))) (bs nm) l (ValueExpr v)).
    { intros nm v l. apply a_attempt. eapply a_map_eq; [apply a_tag|reflexivity]. }
    assert (D : forall c l, range_in_contains (chr "1") (chr "7") c = false -> rej day_of_week_text (c :: l) false).
    { intros c l K. unfold day_of_week_text. eapply r_one; [apply c_in|exact K]. }
    repeat destruct H as [H|H]; destruct H as [-> ->]; (apply a_or2; [apply D; reflexivity|]);
      repeat first [apply Y|apply a_or2; [repeat apply r_or; tag_no|]|apply a_or1]; try (eapply a_map_eq; [apply a_elm|reflexivity]).
Qed.

Lemma a_instruction : forall t e, cron_text t e -> acc instruction t [] e.
Proof.
  intros t e H. destruct H as [s1 e1 s2 e2 s3 e3 s4 e4 s5 e5 H1 H2 H3 H4 H5]. unfold instruction.
  eapply a_map_eq with (v := ((((e1, e2), e3), e4), e5)); [|reflexivity].
  assert (F : forall x (U : list N -> cexpr -> Prop) s e rest, (forall s e rest, U s e -> starts after_unit rest -> acc x s rest e) ->
    (forall l, starts not_unit l -> rej x l false) -> field_text U s e -> acc (digit_instruction x) s (bs " " ++ rest) e).
  { intros x U s e rest Ha Hr Hf. eapply a_field; [exact Ha|exact Hr|exact Hf|reflexivity]. }
  replace (s1 ++ bs " " ++ s2 ++ bs " " ++ s3 ++ bs " " ++ s4 ++ bs " " ++ s5) with ((((((((s1 ++ bs " ") ++ s2) ++ bs " ") ++ s3) ++ bs " ") ++ s4) ++ bs " ") ++ s5)
    by (now rewrite <- !app_assoc).
  apply a_and; [|eapply a_field; [exact a_dow|exact r_dow|exact H5|exact I]]. rewrite app_nil_r.
  eapply a_skip_right; [|apply a_elm]. apply a_and; [|eapply F; [exact a_month|exact r_month|exact H4]].
  eapply a_skip_right; [|apply a_elm]. apply a_and; [|rewrite <- ?app_assoc; eapply F; [exact a_day|exact r_day|exact H3]].
  eapply a_skip_right; [|apply a_elm]. apply a_and; [|rewrite <- ?app_assoc; eapply F; [exact a_hour|exact r_hour|exact H2]].
  eapply a_skip_right; [|apply a_elm]. rewrite <- ?app_assoc. eapply F; [exact a_min|exact r_min|exact H1].
Qed.
Lemma cron_complete : forall t e, cron_text t e -> cron_parse t = Success e (length t).
Proof.
  intros t e H. unfold cron_parse. rewrite <- (app_nil_r t) at 1. apply acc_parse. rewrite <- (app_nil_r t). eapply a_skip_right; [|apply a_end].
  rewrite app_nil_r. now apply a_instruction.
Qed.
