(** Completeness of the URI parsers: texts of the grammar of UriSpec.v are accepted with the value they spell. *)
From Verif Require Import Base Core Comb Closure RepFacts LitFacts Hoare Runs Text Uri UriSpec UriFacts.
Set Implicit Arguments.
Local Open Scope string_scope.
Local Open Scope nat_scope.
Local Open Scope list_scope.

(** A parser of one element of the class [f]. *)
Definition cls (p : parser N N) (f : N -> bool) : Prop :=
  (forall x rest, f x = true -> acc p [x] rest x) /\ (forall l, hd_not f l -> rej p l false).
Lemma cls_pred : forall f, cls (p_elm_pred f) f.
Proof. intros f. split; [intros; now apply a_elm_pred|intros; now apply r_elm_pred]. Qed.
Lemma cls_pred_ref : forall f, cls (p_elm_pred_ref f) f.
Proof. intros f. split; [intros; now apply a_elm_pred_ref|intros; now apply r_elm_pred_ref]. Qed.
Lemma cls_of : forall f, cls (p_elm_of_set f) f.
Proof. intros f. split; [intros; now apply a_elm_of_set|intros; now apply r_elm_of_set]. Qed.
Lemma cls_ref_of : forall f, cls (p_elm_ref_of f) f.
Proof. intros f. split; [intros; now apply a_elm_ref_of|intros; now apply r_elm_ref_of]. Qed.
Lemma cls_elm : forall c, cls (p_elm c) (N.eqb c).
Proof.
  intros c. split.
  - intros x rest H. apply N.eqb_eq in H. subst. apply a_elm.
  - intros l H. apply r_elm. destruct l as [|y l]; [exact I|]. cbn in H. apply N.eqb_neq in H. congruence.
Qed.
Lemma cls_elm_ref : forall c, cls (p_elm_ref c) (N.eqb c).
Proof.
  intros c. split.
  - intros x rest H. apply N.eqb_eq in H. subst. apply a_elm_ref.
  - intros l H. apply r_elm_ref. destruct l as [|y l]; [exact I|]. cbn in H. apply N.eqb_neq in H. congruence.
Qed.
Lemma cls_digit_1_9 : cls p_elm_digit_1_9 (in_range 49 57).
Proof.
  unfold p_elm_digit_1_9, p_elm_digit_1_9_ref, p_filter_not, p_elm_digit_ref. split.
  - intros x rest H. unfold in_range in H. apply andb_true_iff in H. rewrite !N.leb_le in H.
    eapply a_map_eq; [|reflexivity]. apply a_filter; [apply a_elm_pred_ref|].
    + unfold is_ascii_digit, in_range. apply andb_true_iff. rewrite !N.leb_le. lia.
    + apply negb_true_iff, N.eqb_neq. lia.
  - intros l H. apply r_map. destruct l as [|x l]; [apply r_filter, r_elm_pred_ref; exact I|].
    destruct (is_ascii_digit x) eqn:E.
    + apply (@r_filter_false _ _ _ _ [x] l x); [now apply a_elm_pred_ref|]. unfold is_ascii_digit, in_range in *. cbn in H.
      apply andb_true_iff in E. rewrite !N.leb_le in E. apply negb_false_iff. apply andb_false_iff in H. rewrite !N.leb_gt in H.
      apply N.eqb_eq. cbn in *. lia.
    + apply r_filter, r_elm_pred_ref. exact E.
Qed.
Lemma cls_or : forall p q f g, cls p f -> cls q g -> cls (p_or p q) (fun x => f x || g x).
Proof.
  intros p q f g [P1 P2] [Q1 Q2]. split.
  - intros x rest H. destruct (f x) eqn:E; [now apply a_or1, P1|]. apply a_or2; [now apply P2|]. apply Q1. exact H.
  - intros l H. apply r_or; [apply P2|apply Q2]; (destruct l; [exact I|]; cbn in *; apply orb_false_iff in H; tauto).
Qed.

(** ** dec-octet *)
Definition ok2 (f g : N -> bool) (l : list N) : bool := match l with a :: b :: _ => f a && g b | _ => false end.
Definition ok3 (f g h : N -> bool) (l : list N) : bool := match l with a :: b :: c :: _ => f a && g b && h c | _ => false end.
Lemma two_acc : forall p q f g a b rest, cls p f -> cls q g -> f a && g b = true -> acc (p_collect (p_and p q)) [a; b] rest [a; b].
Proof.
  intros p q f g a b rest [P _] [Q _] H. apply andb_true_iff in H. destruct H. eapply a_collect.
  change [a; b] with ([a] ++ [b]). eapply a_and; [apply P|apply Q]; assumption.
Qed.
Lemma two_rej : forall p q f g l, cls p f -> cls q g -> ok2 f g l = false -> rej (p_and p q) l false.
Proof.
  intros p q f g l [P P'] [Q Q'] H. destruct l as [|a l]; [apply r_and1, P'; exact I|]. destruct (f a) eqn:E.
  - change (a :: l) with ([a] ++ l). eapply r_and2; [apply P, E|]. apply Q'. destruct l as [|b l]; [exact I|]. cbn in *.
    now rewrite E in H.
  - apply r_and1, P'. exact E.
Qed.
Lemma three_acc : forall p q r f g h a b c rest, cls p f -> cls q g -> cls r h -> f a && g b && h c = true ->
  acc (p_collect (p_and (p_and p q) r)) [a; b; c] rest [a; b; c].
Proof.
  intros p q r f g h a b c rest [P _] [Q _] [R _] H. rewrite !andb_true_iff in H. destruct H as [[H1 H2] H3]. eapply a_collect.
  change [a; b; c] with (([a] ++ [b]) ++ [c]). eapply a_and; [eapply a_and; [apply P|apply Q]|apply R]; assumption.
Qed.
Lemma three_rej : forall p q r f g h l, cls p f -> cls q g -> cls r h -> ok3 f g h l = false -> rej (p_and (p_and p q) r) l false.
Proof.
  intros p q r f g h l P Q R H. destruct (ok2 f g l) eqn:E; [|apply r_and1; eapply two_rej; eassumption].
  destruct l as [|a [|b l]]; try discriminate. cbn in E. change (a :: b :: l) with (([a] ++ [b]) ++ l).
  pose proof E as E'. apply andb_true_iff in E'. destruct E' as [E1 E2].
  eapply r_and2; [eapply a_and; [apply P|apply Q]; assumption|]. apply R. destruct l as [|c l]; [exact I|]. cbn in *. now rewrite E in H.
Qed.

Definition dig := in_range 48 57.
Lemma cls_digit : cls p_elm_digit dig.
Proof. apply cls_pred. Qed.
(** [dec_octet] without the conversions. *)
Definition octet_alts : parser N bytes :=
  p_or (p_or (p_or (p_or
    (p_attempt (p_collect (p_and (p_and (p_elm (chr "2")) (p_elm (chr "5"))) (p_elm_in (chr "0") (chr "5")))))
    (p_attempt (p_collect (p_and (p_and (p_elm (chr "2")) (p_elm_in (chr "0") (chr "4"))) p_elm_digit))))
    (p_attempt (p_collect (p_and (p_and (p_elm (chr "1")) p_elm_digit) p_elm_digit))))
    (p_attempt (p_collect (p_and p_elm_digit_1_9 p_elm_digit)))) (p_collect p_elm_digit).
Lemma cls_in : forall a b, cls (p_elm_in a b) (range_in_contains a b).
Proof. intros a b. apply cls_of. Qed.
Definition k5 := ok3 (N.eqb (chr "2")) (N.eqb (chr "5")) (range_in_contains (chr "0") (chr "5")).
Definition k4 := ok3 (N.eqb (chr "2")) (range_in_contains (chr "0") (chr "4")) dig.
Definition k3 := ok3 (N.eqb (chr "1")) dig dig.
Definition k2 := ok2 (in_range 49 57) dig.
Lemma r5 : forall l, k5 l = false -> rej (p_attempt (p_collect (p_and (p_and (p_elm (chr "2")) (p_elm (chr "5"))) (p_elm_in (chr "0") (chr "5"))))) l false.
Proof. intros l H. eapply r_attempt, r_collect, three_rej; [apply cls_elm|apply cls_elm|apply cls_in|exact H]. Qed.
Lemma r4 : forall l, k4 l = false -> rej (p_attempt (p_collect (p_and (p_and (p_elm (chr "2")) (p_elm_in (chr "0") (chr "4"))) p_elm_digit))) l false.
Proof. intros l H. eapply r_attempt, r_collect, three_rej; [apply cls_elm|apply cls_in|apply cls_digit|exact H]. Qed.
Lemma r3 : forall l, k3 l = false -> rej (p_attempt (p_collect (p_and (p_and (p_elm (chr "1")) p_elm_digit) p_elm_digit))) l false.
Proof. intros l H. eapply r_attempt, r_collect, three_rej; [apply cls_elm|apply cls_digit|apply cls_digit|exact H]. Qed.
Lemma r2 : forall l, k2 l = false -> rej (p_attempt (p_collect (p_and p_elm_digit_1_9 p_elm_digit))) l false.
Proof. intros l H. eapply r_attempt, r_collect, two_rej; [apply cls_digit_1_9|apply cls_digit|exact H]. Qed.
Lemma alts_3 : forall a b c rest, (k5 [a; b; c] || k4 [a; b; c] || k3 [a; b; c] = true) -> acc octet_alts [a; b; c] rest [a; b; c].
Proof.
  intros a b c rest H. unfold octet_alts. apply a_or1, a_or1.
  change (k3 [a; b; c]) with (k3 ([a; b; c] ++ rest)) in H. change (k4 [a; b; c]) with (k4 ([a; b; c] ++ rest)) in H.
  change (k5 [a; b; c]) with (k5 ([a; b; c] ++ rest)) in H.
  destruct (k5 ([a; b; c] ++ rest)) eqn:E5.
  { apply a_or1, a_or1, a_attempt. eapply three_acc; [apply cls_elm|apply cls_elm|apply cls_in|exact E5]. }
  destruct (k4 ([a; b; c] ++ rest)) eqn:E4.
  { apply a_or1, a_or2; [apply r5, E5|]. apply a_attempt. eapply three_acc; [apply cls_elm|apply cls_in|apply cls_digit|exact E4]. }
  cbn [orb] in H. apply a_or2; [apply r_or; [apply r5, E5|apply r4, E4]|].
  apply a_attempt. eapply three_acc; [apply cls_elm|apply cls_digit|apply cls_digit|exact H].
Qed.
Lemma alts_2 : forall a b rest, k5 ([a; b] ++ rest) = false -> k4 ([a; b] ++ rest) = false -> k3 ([a; b] ++ rest) = false ->
  k2 [a; b] = true -> acc octet_alts [a; b] rest [a; b].
Proof.
  intros a b rest H5 H4 H3 H2. unfold octet_alts. apply a_or1, a_or2.
  - apply r_or; [apply r_or; [apply r5, H5|apply r4, H4]|apply r3, H3].
  - apply a_attempt. eapply two_acc; [apply cls_digit_1_9|apply cls_digit|exact H2].
Qed.
Lemma alts_1 : forall a rest, k5 ([a] ++ rest) = false -> k4 ([a] ++ rest) = false -> k3 ([a] ++ rest) = false ->
  k2 ([a] ++ rest) = false -> dig a = true -> acc octet_alts [a] rest [a].
Proof.
  intros a rest H5 H4 H3 H2 H1. unfold octet_alts. apply a_or2.
  - apply r_or; [apply r_or; [apply r_or; [apply r5, H5|apply r4, H4]|apply r3, H3]|apply r2, H2].
  - eapply a_collect. apply cls_digit, H1.
Qed.
(** Decide the digit tests. *)
Ltac tests :=
  cbn [app hd_not] in *;
  unfold k5, k4, k3, k2, ok3, ok2, dig, in_range, range_in_contains, digit, is_ascii_digit in *;
  change (chr "0") with 48%N in *; change (chr "1") with 49%N in *; change (chr "2") with 50%N in *;
  change (chr "4") with 52%N in *; change (chr "5") with 53%N in *; change (chr "9") with 57%N in *;
  rewrite ?orb_true_iff, ?orb_false_iff, ?andb_true_iff, ?andb_false_iff, ?N.leb_le, ?N.leb_gt, ?N.eqb_eq, ?N.eqb_neq in *.
Lemma alts_0 : forall l, hd_not dig l -> rej octet_alts l false.
Proof.
  intros l H. unfold octet_alts. repeat apply r_or; [apply r5|apply r4|apply r3|apply r2|apply r_collect, cls_digit, H];
  destruct l as [|x [|y [|z l]]]; try reflexivity; tests; lia.
Qed.
(** The octet texts. *)
Definition octet_ok (s : bytes) : bool :=
  match s with
  | [a] => dig a
  | [a; b] => k2 [a; b]
  | [a; b; c] => k5 s || k4 s || k3 s
  | _ => false
  end.
Lemma dec_value_step : forall s acc, fold_left (fun acc c => acc * 10 + (c - 48))%N s acc = (acc * 10 ^ N.of_nat (length s) + dec_value s)%N.
Proof.
  induction s as [|c s IH]; intros acc; [unfold dec_value; cbn; lia|]. unfold dec_value. cbn [fold_left].
  rewrite !IH. cbn [List.length]. rewrite Nat2N.inj_succ, N.pow_succ_r'. lia.
Qed.
Lemma octet_iff : forall s, (exists v, octet v s) <-> octet_ok s = true.
Proof.
  intros s. split.
  - intros (v & (Hd & Hne & Hz) & Hv & Hb). destruct s as [|a [|b [|c [|d s]]]]; [congruence|..].
    + inv Hd. cbn. tests. lia.
    + inv Hd. inv H2. cbn [octet_ok]. tests. lia.
    + inv Hd. inv H2. inv H4. unfold dec_value in Hb. cbn [fold_left] in Hb. cbn [octet_ok]. tests. lia.
    + exfalso. inv Hd. unfold dec_value in Hb. cbn [fold_left] in Hb. rewrite dec_value_step in Hb.
      unfold digit in *. assert (1 <= 10 ^ N.of_nat (length s))%N by (clear; induction (length s); [cbn; lia|rewrite Nat2N.inj_succ, N.pow_succ_r'; lia]).
      assert (1 <= a - 48)%N by lia. set (T := (10 ^ N.of_nat (length s))%N) in *.
      match type of Hb with (?x * _ + _ <= _)%N => assert (1000 <= x)%N by lia end. nia.
  - intros H. exists (dec_value s). unfold octet, canonical. destruct s as [|a [|b [|c [|d s]]]]; try discriminate; cbn [octet_ok] in H.
    + tests. unfold dec_value. cbn [fold_left]. repeat split; [repeat constructor; lia|discriminate|lia].
    + tests. unfold dec_value. cbn [fold_left]. repeat split; [repeat constructor; lia|discriminate|lia|lia].
    + tests. unfold dec_value. cbn [fold_left]. repeat split; [repeat constructor; lia|discriminate|lia|lia].
Qed.
Lemma octet_value : forall v s, octet v s -> parse_uint 255 s = inl v.
Proof. intros v s ((Hd & Hne & _) & <- & Hb). now apply parse_uint_digits. Qed.
Lemma octet_fun : forall v w s, octet v s -> octet w s -> v = w.
Proof. intros v w s (_ & <- & _) (_ & <- & _). reflexivity. Qed.
Lemma canonical_ascii : forall s, Forall digit s -> ascii s.
Proof. intros s H. eapply Forall_impl; [|exact H]. unfold digit. cbn. lia. Qed.
Lemma a_to_string : forall p s rest, acc p s rest s -> ascii s -> acc (to_string p) s rest s.
Proof. intros p s rest H A. unfold to_string. eapply a_map_res; [eapply a_map_eq; [exact H|reflexivity]|]. now apply ascii_utf8. Qed.
Lemma r_to_string : forall p l c, rej p l c -> rej (to_string p) l c.
Proof. intros p l c H. now apply r_map_res, r_map. Qed.

(** The longest octet the text starts with is taken. *)
Lemma a_octet : forall v s rest, octet v s -> (forall w t r, rest = t ++ r -> t <> [] -> ~ octet w (s ++ t)) -> acc dec_octet s rest v.
Proof.
  intros v s rest H Hmax. unfold dec_octet. apply a_name. eapply a_map_res; [|apply octet_value, H].
  assert (As : ascii s) by (apply canonical_ascii, H).
  apply a_to_string; [|exact As]. eapply a_collect. fold octet_alts.
  assert (M : forall t r, rest = t ++ r -> t <> [] -> octet_ok (s ++ t) = false).
  { intros t r E Hne. destruct (octet_ok (s ++ t)) eqn:K; [|reflexivity]. apply octet_iff in K. destruct K as [w K].
    now apply Hmax with (r := r) in K. }
  pose proof (proj1 (octet_iff s) (ex_intro _ v H)) as K. clear H Hmax.
  destruct s as [|a [|b [|c [|d s]]]]; try discriminate; cbn [octet_ok] in K.
  - destruct rest as [|x rest]; [apply alts_1; try reflexivity; exact K|].
    pose proof (M [x] rest eq_refl ltac:(discriminate)) as M1. cbn [app octet_ok] in M1.
    destruct rest as [|y rest].
    + apply alts_1; try reflexivity; [exact M1|exact K].
    + apply alts_1; [..|exact M1|exact K]; tests; lia.
  - destruct rest as [|x rest]; [apply alts_2; try reflexivity; exact K|].
    pose proof (M [x] rest eq_refl ltac:(discriminate)) as M1. cbn [app octet_ok] in M1.
    rewrite !orb_false_iff in M1. destruct M1 as [[M5 M4] M3]. now apply alts_2.
  - now apply alts_3.
Qed.
Lemma r_octet : forall l, hd_not dig l -> rej dec_octet l false.
Proof. intros l H. unfold dec_octet. apply r_name, r_map_res, r_to_string, r_collect. now apply alts_0. Qed.
Lemma a_octet_stop : forall v s rest, octet v s -> hd_not dig rest -> acc dec_octet s rest v.
Proof.
  intros v s rest H Hs. apply a_octet; [exact H|]. intros w t r E Hne K. destruct t as [|x t]; [congruence|]. subst. cbn in Hs.
  destruct K as ((K & _) & _). apply Forall_app in K. destruct K as [_ K]. inv K. unfold dig, in_range, digit in *.
  apply andb_false_iff in Hs. rewrite !N.leb_gt in Hs. lia.
Qed.

(** ** Encoded texts *)
(** [l] does not start with a character of [C] nor with a percent sign. *)
Definition stop (C : N -> Prop) (l : list N) : Prop := match l with [] => True | x :: _ => ~ C x /\ x <> chr "%" end.
(** A parser of the pieces of [enc C]. *)
Definition pieces (p : parser N bytes) (C : N -> Prop) : Prop :=
  (forall x rest, C x -> acc p [x] rest [x]) /\
  (forall a b rest, hexdig a -> hexdig b -> acc p [chr "%"; a; b] rest [chr "%"; a; b]) /\
  (forall l, stop C l -> rej p l false).
Lemma enc_chain : forall p C s rest, pieces p C -> enc C s -> exists vs, chain p s rest vs /\ (s <> [] -> vs <> []).
Proof.
  intros p C s rest (P1 & P2 & P3) H. induction H as [|x s Hx H [vs [IH _]]|a b s Ha Hb H [vs [IH _]]].
  - exists []. split; [constructor|congruence].
  - exists ([x] :: vs). split; [|discriminate]. change (x :: s) with ([x] ++ s). constructor; [now apply P1|discriminate|exact IH].
  - exists ([chr "%"; a; b] :: vs). split; [|discriminate]. change (chr "%" :: a :: b :: s) with ([chr "%"; a; b] ++ s).
    constructor; [now apply P2|discriminate|exact IH].
Qed.
Lemma a_enc0 : forall p C s rest, pieces p C -> enc C s -> stop C rest -> acc (p_collect (p_many0 p)) s rest s.
Proof.
  intros p C s rest P H Hs. destruct (enc_chain rest P H) as (vs & K & _). eapply a_collect, a_many0; [exact K|]. now apply P.
Qed.
Lemma a_enc1 : forall p C s rest, pieces p C -> enc C s -> s <> [] -> stop C rest -> acc (p_collect (p_many1 p)) s rest s.
Proof.
  intros p C s rest P H Hne Hs. destruct (enc_chain rest P H) as (vs & K & L). eapply a_collect, a_many1; [exact K| |auto]. now apply P.
Qed.
Lemma r_enc1 : forall p C l, pieces p C -> stop C l -> rej (p_collect (p_many1 p)) l false.
Proof. intros p C l P H. apply r_collect. eapply r_many1. now apply P. Qed.

(** A parser of one character of a class, collected. *)
Definition single (p : parser N bytes) (C : N -> Prop) : Prop :=
  (forall x rest, C x -> acc p [x] rest [x]) /\ (forall l, match l with [] => True | x :: _ => ~ C x end -> rej p l false).
Lemma cls_single : forall p f C, cls p f -> (forall x, f x = true <-> C x) -> single (p_collect p) C.
Proof.
  intros p f C [P1 P2] H. split.
  - intros x rest Hx. eapply a_collect. apply P1. now apply H.
  - intros l Hl. apply r_collect, P2. destruct l as [|x l]; [exact I|]. cbn. destruct (f x) eqn:E; [|reflexivity].
    apply H in E. contradiction.
Qed.
Lemma single_name : forall p C nm, single p C -> single (p_name p nm) C.
Proof. intros p C nm [P1 P2]. split; [intros; now apply a_name, P1|intros; now apply r_name, P2]. Qed.
Lemma cls_name : forall p f nm, cls p f -> cls (p_name p nm) f.
Proof. intros p f nm [P1 P2]. split; [intros; now apply a_name, P1|intros; now apply r_name, P2]. Qed.
Lemma alpha_iff : forall x, is_ascii_alpha x = true <-> alpha x.
Proof. intros x. unfold is_ascii_alpha, in_range, alpha. rewrite orb_true_iff, !andb_true_iff, !N.leb_le. lia. Qed.
Lemma among_iff : forall l x, set_contains l x = true <-> among l x.
Proof. intros l x. apply set_contains_in. Qed.
Lemma s_unreserved : single unreserved c_unreserved.
Proof.
  apply single_name. eapply cls_single; [apply cls_or; [apply cls_or; apply cls_pred_ref|apply cls_ref_of]|].
  intros x. cbv beta. rewrite !orb_true_iff, alpha_iff, is_digit_iff, among_iff. unfold c_unreserved. tauto.
Qed.
Lemma s_among : forall l, single (p_collect (elm_ref_of l)) (among l).
Proof. intros l. eapply cls_single; [apply cls_ref_of|apply among_iff]. Qed.
Lemma s_sub : single sub_delims c_sub_delims.
Proof. eapply cls_single; [apply cls_name, cls_ref_of|apply among_iff]. Qed.
Lemma s_sub' : single sub_delims_without_eq_ampersand (among (bs "!$'()*+,;")).
Proof. eapply cls_single; [apply cls_name, cls_ref_of|apply among_iff]. Qed.
Lemma s_elm_ref : forall c, single (p_collect (p_elm_ref c)) (fun x => x = c).
Proof. intros c. eapply cls_single; [apply cls_elm_ref|]. intros x. rewrite N.eqb_eq. split; congruence. Qed.

Lemma a_pct : forall a b rest, hexdig a -> hexdig b -> acc pct_encoded [chr "%"; a; b] rest [chr "%"; a; b].
Proof.
  intros a b rest Ha Hb. apply a_name. eapply a_collect. change [chr "%"; a; b] with (([chr "%"] ++ [a]) ++ [b]).
  eapply a_and; [eapply a_and; [apply a_elm_ref|]|]; apply a_elm_pred_ref; now apply hexdig_iff.
Qed.
Lemma r_pct : forall l, match l with [] => True | x :: _ => x <> chr "%" end -> rej pct_encoded l false.
Proof. intros l H. apply r_name, r_collect, r_and1, r_and1. now apply r_elm_ref. Qed.

Lemma in_dec_N : forall (l : list N) x, {In x l} + {~ In x l}.
Proof. intros l x. apply in_dec, N.eq_dec. Qed.
Lemma dec_bool : forall (C : N -> Prop) f x, (f x = true <-> C x) -> C x \/ ~ C x.
Proof. intros C f x H. destruct (f x) eqn:E; [left; now apply H|right; intros K; apply H in K; congruence]. Qed.
Definition decidable_class (C : N -> Prop) : Prop := forall x, C x \/ ~ C x.
Lemma d_or : forall C D : N -> Prop, decidable_class C -> decidable_class D -> decidable_class (fun x => C x \/ D x).
Proof. intros C D HC HD x. destruct (HC x), (HD x); tauto. Qed.
Lemma d_among : forall l, decidable_class (among l).
Proof. intros l x. destruct (in_dec_N l x); [left|right]; assumption. Qed.
Lemma d_unreserved : decidable_class c_unreserved.
Proof.
  apply d_or; [|apply d_or; [|apply d_among]].
  - intros x. eapply dec_bool, alpha_iff.
  - intros x. eapply dec_bool, is_digit_iff.
Qed.

(** p | q: the first that matches. *)
Definition no_pct (C : N -> Prop) : Prop := ~ C (chr "%").
Lemma np_unreserved : no_pct c_unreserved.
Proof.
  intros [H|[H|H]]; [unfold alpha in H; cbn in H; lia|unfold digit in H; cbn in H; lia|]. vm_compute in H.
  repeat destruct H as [H|H]; try discriminate; contradiction.
Qed.
Lemma np_among : forall l, set_contains l (chr "%") = false -> no_pct (among l).
Proof. intros l H K. apply among_iff in K. congruence. Qed.
Lemma pieces_base : forall p q C, single p C -> decidable_class C -> no_pct C -> (q = p_attempt pct_encoded \/ q = pct_encoded) ->
  pieces (p_or p q) C.
Proof.
  intros p q C [P1 P2] D Np Hq. assert (Q1 : forall a b rest, hexdig a -> hexdig b -> acc q [chr "%"; a; b] rest [chr "%"; a; b]).
  { intros a b rest Ha Hb. destruct Hq as [-> | ->]; [apply a_attempt|]; now apply a_pct. }
  assert (Q2 : forall l, match l with [] => True | x :: _ => x <> chr "%" end -> rej q l false).
  { intros l Hl. destruct Hq as [-> | ->]; [eapply r_attempt|]; now apply r_pct. }
  split; [|split].
  - intros x rest Hx. now apply a_or1, P1.
  - intros a b rest Ha Hb. apply a_or2; [apply P2; exact Np|now apply Q1].
  - intros l Hl. apply r_or; [apply P2; destruct l; [exact I|apply Hl]|apply Q2; destruct l; [exact I|apply Hl]].
Qed.
Lemma pieces_or : forall p q C D, pieces p C -> decidable_class C -> single q D -> no_pct D -> pieces (p_or p q) (fun x => C x \/ D x).
Proof.
  intros p q C D (P1 & P2 & P3) Dc [Q1 Q2] Nd. split; [|split].
  - intros x rest Hx. destruct (Dc x) as [H|H]; [now apply a_or1, P1|]. destruct Hx as [Hx|Hx]; [contradiction|].
    apply a_or2; [|now apply Q1]. apply P3. split; [exact H|]. intros ->. contradiction.
  - intros a b rest Ha Hb. now apply a_or1, P2.
  - intros l Hl. apply r_or; [apply P3|apply Q2]; (destruct l; [exact I|]); cbn in *; tauto.
Qed.
Lemma pieces_iff : forall p C D, pieces p C -> (forall x, C x <-> D x) -> pieces p D.
Proof.
  intros p C D (P1 & P2 & P3) H. split; [|split].
  - intros x rest Hx. now apply P1, H.
  - exact P2.
  - intros l Hl. apply P3. destruct l; [exact I|]. cbn in *. now rewrite H.
Qed.
Lemma pieces_collect : forall p C, pieces p C -> pieces (p_collect p) C.
Proof.
  intros p C (P1 & P2 & P3). split; [|split].
  - intros x rest Hx. eapply a_collect. now apply P1.
  - intros a b rest Ha Hb. eapply a_collect. now apply P2.
  - intros l Hl. now apply r_collect, P3.
Qed.
Lemma pieces_name : forall p C nm, pieces p C -> pieces (p_name p nm) C.
Proof.
  intros p C nm (P1 & P2 & P3). split; [|split].
  - intros x rest Hx. now apply a_name, P1.
  - intros a b rest Ha Hb. now apply a_name, P2.
  - intros l Hl. now apply r_name, P3.
Qed.
Lemma d_reg : decidable_class c_reg.
Proof. apply d_or; [apply d_unreserved|apply d_among]. Qed.
Lemma d_pchar : decidable_class c_pchar.
Proof. apply d_or; [apply d_reg|apply d_among]. Qed.
Lemma p_reg : pieces (p_or (p_or (p_attempt unreserved) (p_attempt pct_encoded)) sub_delims) c_reg.
Proof.
  apply pieces_or; [|apply d_unreserved|apply s_sub|apply np_among; reflexivity].
  apply pieces_base; [|apply d_unreserved|apply np_unreserved|now left].
  split; [intros; now apply a_attempt, s_unreserved|intros; eapply r_attempt; now apply s_unreserved].
Qed.
Lemma p_pchar : pieces pchar c_pchar.
Proof.
  apply pieces_name, pieces_collect. apply pieces_or; [|apply d_reg|apply s_among|apply np_among; reflexivity].
  apply pieces_or; [|apply d_unreserved|apply s_sub|apply np_among; reflexivity].
  apply pieces_base; [apply s_unreserved|apply d_unreserved|apply np_unreserved|now right].
Qed.
Lemma d_query' : decidable_class (fun x => (c_unreserved x \/ among (bs "!$'()*+,;") x) \/ among (bs ":@") x).
Proof. apply d_or; [apply d_or; [apply d_unreserved|apply d_among]|apply d_among]. Qed.
Lemma p_query_piece : pieces (p_or pchar_without_eq_amp (p_collect (p_elm_of (bs "/?")))) c_query.
Proof.
  eapply pieces_iff; [apply pieces_or with (C := fun x => (c_unreserved x \/ among (bs "!$'()*+,;") x) \/ among (bs ":@") x)|].
  - apply pieces_name, pieces_collect.
    apply pieces_or; [|apply d_or; [apply d_unreserved|apply d_among]|apply s_among|apply np_among; reflexivity].
    apply pieces_or; [|apply d_unreserved|apply s_sub'|apply np_among; reflexivity].
    apply pieces_base; [apply s_unreserved|apply d_unreserved|apply np_unreserved|now right].
  - apply d_query'.
  - eapply cls_single; [apply cls_of|apply among_iff].
  - apply np_among. reflexivity.
  - intros x. unfold c_query. tauto.
Qed.
Lemma p_fragment_piece : pieces (p_or pchar (p_collect (elm_ref_of (bs "/?")))) c_fragment.
Proof. apply pieces_or; [apply p_pchar|apply d_pchar|apply s_among|apply np_among; reflexivity]. Qed.

Lemma reg_small : forall x, c_reg x -> (x < 128)%N.
Proof. intros x H. apply pchar_small. now left. Qed.
Lemma fragment_small : forall x, c_fragment x -> (x < 128)%N.
Proof. intros x [H|H]; [now apply pchar_small|]. eapply among_small; [|exact H]. reflexivity. Qed.
Lemma query_small : forall x, c_query x -> (x < 128)%N.
Proof.
  intros x [H|[H|[H|H]]]; [apply reg_small; now left|..]; (eapply among_small; [|exact H]); reflexivity.
Qed.
(** The classes as tests, to decide them on literal characters. *)
Definition b_unreserved x := is_ascii_alpha x || (is_ascii_digit x || set_contains (bs "-._~") x).
Definition b_reg x := b_unreserved x || set_contains (bs "!$&'()*+,;=") x.
Definition b_pchar x := b_reg x || set_contains (bs ":@") x.
Definition b_query x := b_unreserved x || (set_contains (bs "!$'()*+,;") x || (set_contains (bs ":@") x || set_contains (bs "/?") x)).
Definition b_fragment x := b_pchar x || set_contains (bs "/?") x.
Lemma unreserved_iff : forall x, b_unreserved x = true <-> c_unreserved x.
Proof. intros x. unfold b_unreserved, c_unreserved. now rewrite !orb_true_iff, alpha_iff, is_digit_iff, among_iff. Qed.
Lemma reg_iff : forall x, b_reg x = true <-> c_reg x.
Proof. intros x. unfold b_reg, c_reg, c_sub_delims. now rewrite orb_true_iff, unreserved_iff, among_iff. Qed.
Lemma pchar_iff : forall x, b_pchar x = true <-> c_pchar x.
Proof. intros x. unfold b_pchar, c_pchar. now rewrite orb_true_iff, reg_iff, among_iff. Qed.
Lemma query_iff : forall x, b_query x = true <-> c_query x.
Proof. intros x. unfold b_query, c_query. now rewrite !orb_true_iff, unreserved_iff, !among_iff. Qed.
Lemma fragment_iff : forall x, b_fragment x = true <-> c_fragment x.
Proof. intros x. unfold b_fragment, c_fragment. now rewrite orb_true_iff, pchar_iff, among_iff. Qed.
(** Decide a class on a literal character. *)
Ltac lit_class :=
  first [apply unreserved_iff|apply reg_iff|apply pchar_iff|apply query_iff|apply fragment_iff
        |rewrite <- unreserved_iff|rewrite <- reg_iff|rewrite <- pchar_iff|rewrite <- query_iff|rewrite <- fragment_iff];
  vm_compute; congruence.
Ltac lit_stop := split; [lit_class|discriminate].

(** [l] is empty or starts with one of the characters of [cs]. *)
Definition starts (cs : list N) (l : list N) : Prop := match l with [] => True | x :: _ => In x cs end.
Definition after_path := bs "?#".
Definition after_authority := bs "/?#".
Lemma starts_stop : forall cs (C : N -> Prop) f l, (forall x, f x = true <-> C x) ->
  forallb (fun x => negb (f x) && negb (x =? chr "%")%N) cs = true -> starts cs l -> stop C l.
Proof.
  intros cs C f l Hf H Hs. destruct l as [|x l]; [exact I|]. rewrite forallb_forall in H. specialize (H x Hs).
  apply andb_true_iff in H. rewrite !negb_true_iff in H. destruct H as [H1 H2]. split.
  - intros K. apply Hf in K. congruence.
  - now apply N.eqb_neq.
Qed.
Lemma starts_more : forall cs ds l, incl cs ds -> starts cs l -> starts ds l.
Proof. intros cs ds [|x l] H K; [exact I|]. now apply H. Qed.
Lemma starts_not : forall cs l c, starts cs l -> ~ In c cs -> match l with [] => True | y :: _ => y <> c end.
Proof. intros cs [|x l] c H K; [exact I|]. intros ->. contradiction. Qed.
Lemma starts_hd_not : forall cs l f, starts cs l -> forallb (fun x => negb (f x)) cs = true -> hd_not f l.
Proof. intros cs [|x l] f H K; [exact I|]. rewrite forallb_forall in K. specialize (K x H). now apply negb_true_iff in K. Qed.
Ltac lit_in := vm_compute; tauto.
Ltac lit_notin := vm_compute; intuition congruence.

(** ** Scheme *)
Lemma a_scheme : forall s rest, g_scheme s s -> hd_not (fun x => is_ascii_alpha x || is_ascii_digit x || set_contains (bs "+-.") x) rest ->
  acc scheme s rest s.
Proof.
  intros s rest (_ & x & t & -> & Hx & Ht) Hr. unfold scheme. eapply a_map_eq; [|reflexivity].
  assert (Ht' : Forall (fun c => (is_ascii_alpha c || is_ascii_digit c || set_contains (bs "+-.") c) = true) t).
  { eapply Forall_impl; [|exact Ht]. cbv beta. intros c. rewrite !orb_true_iff, alpha_iff, is_digit_iff, among_iff. tauto. }
  apply a_to_string.
  - eapply a_collect. change (x :: t) with ([x] ++ t). eapply a_and; [apply a_elm_pred_ref; now apply alpha_iff|].
    eapply a_many0.
    + eapply chain_class with (f := fun c => is_ascii_alpha c || is_ascii_digit c || set_contains (bs "+-.") c); [|exact Ht'].
      intros y r Hy. revert y r Hy. apply (cls_or (cls_or (cls_pred_ref is_ascii_alpha) (cls_pred_ref is_ascii_digit)) (cls_ref_of (set_contains (bs "+-.")))).
    + apply (cls_or (cls_or (cls_pred_ref is_ascii_alpha) (cls_pred_ref is_ascii_digit)) (cls_ref_of (set_contains (bs "+-.")))). exact Hr.
  - constructor; [unfold alpha in Hx; lia|]. eapply Forall_impl; [|exact Ht]. cbv beta. intros c [H|[H|H]]; [unfold alpha in H; lia|unfold digit in H; lia|].
    eapply among_small; [|exact H]. reflexivity.
Qed.
Lemma r_scheme : forall l, hd_not is_ascii_alpha l -> rej scheme l false.
Proof. intros l H. unfold scheme. apply r_map, r_to_string, r_collect, r_and1. now apply r_elm_pred_ref. Qed.

(** ** Port *)
Lemma digits_port : forall s rest, Forall digit s -> hd_not is_ascii_digit rest -> acc (p_map_res (p_many0 p_elm_digit) from_utf8) s rest s.
Proof.
  intros s rest H Hr. eapply a_map_res; [eapply a_many0|].
  - apply chain_class with (f := is_ascii_digit); [intros; now apply a_elm_pred|]. eapply Forall_impl; [|exact H]. intros x. apply is_digit_iff.
  - now apply r_elm_pred.
  - apply ascii_utf8. now apply canonical_ascii.
Qed.
Lemma a_port : forall n s rest, g_port n s -> hd_not is_ascii_digit rest -> acc port s rest n.
Proof.
  intros n s rest (H & Hne & <- & Hb) Hr. unfold port. apply a_name. eapply a_map_res; [apply digits_port; assumption|].
  now apply parse_uint_digits.
Qed.
Lemma r_port : forall s rest, Forall digit s -> hd_not is_ascii_digit rest -> s = [] \/ (65535 < dec_value s)%N -> rej port (s ++ rest) false.
Proof.
  intros s rest H Hr Hs. unfold port. apply r_name. eapply r_map_res_conv; [apply digits_port; assumption|].
  destruct Hs as [-> |Hs]; [reflexivity|]. now apply parse_uint_overflow.
Qed.

(** ** User info *)
Lemma a_user : forall u s rest, g_user u s -> stop c_reg rest ->
  (ui_password u = None -> match rest with [] => True | x :: r => x <> chr ":" \/ stop c_reg r end) -> acc user_info_p s rest u.
Proof.
  intros u s rest H Hs Hp. unfold user_info_p. apply a_name. destruct H as [n Hn|n p Hn Hpw Hne].
  - eapply a_map_eq with (v := (n, None)); [|reflexivity]. rewrite <- (app_nil_r n) at 1. eapply a_and.
    + apply a_to_string; [|eapply enc_ascii; [apply reg_small|exact Hn]]. eapply a_enc0; [apply p_reg|exact Hn|exact Hs].
    + specialize (Hp eq_refl). destruct rest as [|x r]; [eapply a_opt_none, r_skip_left1, r_elm; exact I|].
      destruct (N.eq_dec x (chr ":")) as [->|Hx].
      * destruct Hp as [Hp|Hp]; [congruence|]. eapply a_opt_none. change (chr ":" :: r) with ([chr ":"] ++ r).
        eapply r_skip_left2; [apply a_elm|]. apply r_to_string. eapply r_enc1; [apply p_reg|exact Hp].
      * eapply a_opt_none, r_skip_left1, r_elm. exact Hx.
  - eapply a_map_eq with (v := (n, Some p)); [|reflexivity]. eapply a_and.
    + apply a_to_string; [|eapply enc_ascii; [apply reg_small|exact Hn]]. eapply a_enc0; [apply p_reg|exact Hn|]. cbn. lit_stop.
    + apply a_opt. eapply a_skip_left; [apply a_elm|]. apply a_to_string; [|eapply enc_ascii; [apply reg_small|exact Hpw]].
      eapply a_enc1; [apply p_reg|exact Hpw|exact Hne|exact Hs].
Qed.

(** ** Host *)
Lemma r_attempt_any : forall A (p : parser N A) l, (forall pre, exists e c, p (pre ++ l) (length pre) = Failure e c) -> rej (p_attempt p) l false.
Proof.
  intros A p l H pre. destruct (H pre) as (e & c & E). exists e. unfold p_attempt. rewrite E. now destruct c.
Qed.
Lemma ipv4_chars : forall a s, g_ipv4 a s -> s <> [] /\ Forall (fun x => digit x \/ x = chr ".") s.
Proof.
  intros a s H. destruct H as [a b c d sa sb sc sd ((Ha & Hne & _) & _) ((Hb & _) & _) ((Hc & _) & _) ((Hd & _) & _)]. split.
  - destruct sa; [congruence|discriminate].
  - repeat (apply Forall_app; split); try (constructor; [now right|constructor]); (eapply Forall_impl; [|eassumption]); cbv beta; tauto.
Qed.
Lemma ipv4_enc : forall a s, g_ipv4 a s -> enc c_reg s.
Proof.
  intros a s H. apply ipv4_chars in H. destruct H as [_ H]. induction H as [|x s Hx _ IH]; [constructor|]. apply enc_chr; [|exact IH].
  left. destruct Hx as [Hx| ->]; [right; left; exact Hx|lit_class].
Qed.
Lemma a_ipv4 : forall a s rest, g_ipv4 a s -> hd_not dig rest -> acc ip_v4_address s rest a.
Proof.
  intros a s rest H Hr. destruct H as [a b c d sa sb sc sd Ha Hb Hc Hd]. unfold ip_v4_address. apply a_name.
  replace (sa ++ bs "." ++ sb ++ bs "." ++ sc ++ bs "." ++ sd) with ((((((sa ++ bs ".") ++ sb) ++ bs ".") ++ sc) ++ bs ".") ++ sd) by now rewrite <- !app_assoc.
  repeat first [eapply a_and|eapply a_skip_right]; try apply a_elm; try (apply a_octet_stop; [assumption|]); try reflexivity. exact Hr.
Qed.
(** A registered name that starts with an IPv4 address is cut there. *)
Definition starts_ipv4 (s : bytes) : Prop := exists a t r, g_ipv4 a t /\ s = t ++ r.
Lemma prefix_of : forall (C : N -> Prop) (s t r rest : bytes), Forall C t -> match rest with [] => True | x :: _ => ~ C x end ->
  s ++ rest = t ++ r -> exists r', s = t ++ r'.
Proof.
  intros C s. induction s as [|x s IH]; intros t r rest Ht Hr E.
  - destruct t as [|y t]; [now exists []|]. cbn in E. subst rest. inv Ht. contradiction.
  - destruct t as [|y t]; [now exists (x :: s)|]. inv Ht. cbn in E. inv E. destruct (IH t r rest H2 Hr H3) as [r' ->]. now exists r'.
Qed.
Lemma r_ipv4 : forall s rest, ~ starts_ipv4 s -> match rest with [] => True | x :: _ => ~ (digit x \/ x = chr ".") end ->
  rej (p_attempt (p_map ip_v4_address Ipv4Address)) (s ++ rest) false.
Proof.
  intros s rest Hn Hr. apply r_attempt_any. intros pre.
  pose proof (@h_ipv4 (pre ++ s ++ rest) (length pre)) as H. specialize (H ltac:(rewrite app_length; lia)). unfold p_map.
  destruct (ip_v4_address (pre ++ s ++ rest) (length pre)) as [a n|e c| |]; [|eauto|contradiction|contradiction].
  exfalso. destruct H as [_ H]. rewrite skipn_app, Nat.sub_diag, skipn_all in H. cbn [skipn app] in H.
  apply Hn. pose proof (proj2 (ipv4_chars H)) as Hc.
  destruct (@prefix_of _ s (firstn n (s ++ rest)) (skipn n (s ++ rest)) rest Hc Hr) as [r' E]; [now rewrite firstn_skipn|].
  exists a, (firstn n (s ++ rest)), r'. now split.
Qed.

Section V6.
Variable v6_parse : bytes -> ipv6 + unit.
(** The IPv6 addresses considered. *)
Variable V6 : ipv6 -> bytes -> Prop.
Hypothesis HV6 : forall a s rest, V6 a s -> acc (ip_v6_address v6_parse) s (chr "]" :: rest) a.

Lemma r_v6_v : forall l, rej (p_attempt (p_map (ip_v6_address v6_parse) Ipv6Address)) (chr "v" :: l) false.
Proof.
  intros l. eapply r_attempt, r_map. unfold ip_v6_address. apply r_name.
  assert (H : rej h16 (chr "v" :: l) false).
  { unfold h16. apply r_name, r_map_res, r_to_string, r_collect. intros pre. unfold p_many_n_m, p_repeat, p_repeat_sep, repeat_sep_fuel.
    destruct (@r_elm_pred N is_ascii_hex_digit (chr "v" :: l) eq_refl pre) as [e E]. unfold p_elm_hex_digit. rewrite E. cbn.
    rewrite Nat.add_0_r, input_at. unfold failed_with_uncommitted. eauto. }
  assert (C : rej (p_seqN (bs "::")) (chr "v" :: l) false) by (apply (@r_seqN (chr ":") [chr ":"] (chr "v" :: l)); discriminate).
  assert (Cn : forall A (q : parser N A) n, rej (p_count (p_skip_right h16 q) (S n)) (chr "v" :: l) false).
  { intros A q n pre. unfold p_count, p_repeat_sep, repeat_sep_fuel. destruct (@r_skip_right1 N _ _ h16 q _ _ H pre) as [e ->]. cbn.
    rewrite Nat.add_0_r, input_at. unfold failed_with_uncommitted. eauto. }
  assert (P1 : forall n, acc (ip_v6_address_p1 n) [] (chr "v" :: l) []).
  { intros n. unfold ip_v6_address_p1. eapply a_collect, a_opt_none, r_map, r_and1, H. }
  assert (P2 : forall n, rej (p_and (ip_v6_address_p1 n) (p_seqN (bs "::"))) (chr "v" :: l) false).
  { intros n. change (chr "v" :: l) with ([] ++ chr "v" :: l). eapply r_and2; [apply P1|exact C]. }
  repeat apply r_or; try eapply r_attempt.
  - apply r_map_panic, r_and1, Cn.
  - apply r_map_panic, r_and1, r_skip_left1, C.
  - apply r_map_panic, r_and1, r_and1. change (chr "v" :: l) with ([] ++ chr "v" :: l). eapply r_skip_right2; [eapply a_opt_none, H|exact C].
  - apply r_map_res, r_to_string, r_collect, r_and1, P2.
  - apply r_map_res, r_to_string, r_collect, r_and1, P2.
  - apply r_map_res, r_to_string, r_collect, r_and1, P2.
  - apply r_map_res, r_to_string, r_collect, r_and1, P2.
  - apply r_map_res, r_to_string, r_collect, r_and1, P2.
  - apply r_map_res, r_to_string, r_collect, P2.
Qed.
Definition future_text (u : bytes) : Prop := exists h s, u = bs "v" ++ h ++ bs "." ++ s /\ Forall hexdig h /\ h <> [] /\
    Forall (fun c => c_reg c \/ c = chr ":") s /\ s <> [].
Lemma a_future_at : forall u rest, match rest with [] => True | x :: _ => ~ (c_reg x \/ x = chr ":") end -> future_text u -> acc ip_v_future u rest u.
Proof.
  intros u rest Hend (h & s & -> & Hh & Hne & Hs & Hne2). unfold ip_v_future. apply a_name, a_to_string.
  - eapply a_collect. replace (bs "v" ++ h ++ bs "." ++ s) with (((bs "v" ++ h) ++ bs ".") ++ s) by now rewrite <- !app_assoc.
    eapply a_and; [eapply a_and; [eapply a_and; [apply a_elm_ref|]|apply a_elm]|].
    + eapply a_many1; [|apply r_elm_pred; reflexivity|exact Hne].
      eapply chain_class with (f := is_ascii_hex_digit); [intros; now apply a_elm_pred|]. eapply Forall_impl; [|exact Hh]. intros x. apply hexdig_iff.
    + eapply a_many1 with (vs := map (fun x => [x]) s); [| |destruct s; [congruence|discriminate]].
      * clear Hne2. induction Hs as [|x s Hx _ IH]; [constructor|]. cbn [map]. change (x :: s) with ([x] ++ s). constructor; [|discriminate|exact IH].
        destruct (d_unreserved x) as [K|K]; [now apply a_or1, a_or1, s_unreserved|].
        destruct (d_among (bs "!$&'()*+,;=") x) as [K2|K2]; [apply a_or1, a_or2; [now apply s_unreserved|now apply s_sub]|].
        apply a_or2; [apply r_or; [now apply s_unreserved|now apply s_sub]|]. apply s_elm_ref.
        destruct Hx as [[Hx|Hx]|Hx]; [contradiction|contradiction|exact Hx].
      * repeat apply r_or; [apply s_unreserved|apply s_sub|apply s_elm_ref]; destruct rest as [|x r]; try exact I; intros E; apply Hend;
          [left; now left|left; now right|now right].
  - repeat (apply Forall_app; split).
    + repeat constructor.
    + eapply Forall_impl; [|exact Hh]. unfold hexdig. cbn. lia.
    + repeat constructor.
    + eapply Forall_impl; [|exact Hs]. intros x [H| ->]; [now apply reg_small|reflexivity].
Qed.

Lemma a_future : forall u rest, future_text u -> acc ip_v_future u (chr "]" :: rest) u.
Proof.
  intros u rest H. apply a_future_at; [|exact H]. intros [K|K]; [|discriminate]. apply reg_iff in K. vm_compute in K. discriminate.
Qed.

(** The hosts that are read back: a registered name must not start with an IPv4 address. *)
Definition plain_host (h : host_name) : Prop := match h with RegName s => ~ starts_ipv4 s | _ => True end.
Lemma after_host_stop : forall rest, starts (bs ":/?#") rest -> stop c_reg rest.
Proof. intros rest H. eapply starts_stop; [apply reg_iff| |exact H]. reflexivity. Qed.
Lemma r_literal_hd : forall l, match l with [] => True | x :: _ => x <> chr "[" end -> rej (p_attempt (p_map (ip_literal_p v6_parse) IpLiteral)) l false.
Proof. intros l H. eapply r_attempt, r_map, r_name, r_skip_right1, r_skip_left1. now apply r_elm_ref. Qed.
Lemma a_host : forall h s rest, g_host V6 h s -> plain_host h -> starts (bs ":/?#") rest -> acc (host v6_parse) s rest h.
Proof.
  intros h s rest H Hp Hr. unfold host. apply a_name. destruct H as [s H Hne|a s H|a s H|hh s H1 H2 H3 H4].
  - assert (Hl : rej (p_attempt (p_map (ip_literal_p v6_parse) IpLiteral)) (s ++ rest) false).
    { apply r_literal_hd. destruct H as [|x s Hx _|]; [congruence| |discriminate]. cbn. intros ->. revert Hx. lit_class. }
    apply a_or2; [apply r_or; [exact Hl|]|].
    + apply r_ipv4; [exact Hp|]. destruct rest as [|x r]; [exact I|]. cbn in Hr. unfold digit.
      repeat destruct Hr as [Hr|Hr]; try contradiction; subst x; cbn; intros [K|K]; try discriminate; lia.
    + unfold reg_name. apply a_name. eapply a_map_eq; [|reflexivity].
      apply a_to_string; [eapply a_enc1; [apply p_reg|exact H|exact Hne|now apply after_host_stop]|].
      eapply enc_ascii; [apply reg_small|exact H].
  - apply a_or1, a_or2.
    + apply r_literal_hd. destruct (ipv4_chars H) as [Hne Hc]. destruct Hc as [|x s [Hx| ->] _]; [congruence| |discriminate].
      cbn. intros ->. unfold digit in Hx. cbn in Hx. lia.
    + apply a_attempt. eapply a_map_eq; [apply a_ipv4; [exact H|]|reflexivity]. eapply starts_hd_not; [exact Hr|reflexivity].
  - apply a_or1, a_or1, a_attempt. eapply a_map_eq; [|reflexivity]. unfold ip_literal_p. apply a_name.
    rewrite app_assoc. eapply a_skip_right; [|apply a_elm_ref]. eapply a_skip_left; [apply a_elm_ref|].
    apply a_or1, a_attempt. eapply a_map_eq; [|reflexivity]. apply HV6, H.
  - apply a_or1, a_or1, a_attempt. eapply a_map_eq; [|reflexivity]. unfold ip_literal_p. apply a_name.
    rewrite app_assoc. eapply a_skip_right; [|apply a_elm_ref]. eapply a_skip_left; [apply a_elm_ref|].
    apply a_or2; [apply r_v6_v|]. eapply a_map_eq; [|reflexivity]. apply a_future. exists hh, s. auto.
Qed.

(** ** Authority *)
(** Without user info the text of host and port is not taken for one. *)
Lemma r_user : forall h sh t rest, g_host V6 h sh -> starts (bs "/?#") rest ->
  t = [] \/ (exists ds, t = bs ":" ++ ds /\ Forall digit ds) -> rej (p_skip_right user_info_p (p_elm_ref (chr "@"))) (sh ++ t ++ rest) false.
Proof.
  intros h sh t rest H Hr Ht.
  assert (Hat : match rest with [] => True | x :: _ => x <> chr "@" end) by (eapply starts_not; [exact Hr|lit_notin]).
  assert (Hstop : stop c_reg rest) by (eapply starts_stop; [apply reg_iff| |exact Hr]; reflexivity).
  assert (Hcol : match rest with [] => True | x :: r => x <> chr ":" \/ stop c_reg r end).
  { destruct rest as [|x r]; [exact I|]. left. refine (@starts_not (bs "/?#") (x :: r) (chr ":") Hr _). lit_notin. }
  assert (E : enc c_reg sh -> rej (p_skip_right user_info_p (p_elm_ref (chr "@"))) (sh ++ t ++ rest) false).
  { intros E. destruct Ht as [->|(ds & -> & Hd)].
    - cbn [app]. eapply r_skip_right2; [apply a_user; [now apply gu_name|exact Hstop|auto]|]. now apply r_elm_ref.
    - destruct ds as [|d ds].
      + cbn [app]. eapply r_skip_right2; [apply a_user; [now apply gu_name|cbn; lit_stop|]|].
        * intros _. cbn. now right.
        * apply r_elm_ref. discriminate.
      + rewrite app_assoc. eapply r_skip_right2; [apply a_user; [apply gu_pass; [exact E| |discriminate]|exact Hstop|discriminate]|].
        * clear -Hd. induction Hd as [|x l Hx _ IH]; [constructor|]. apply enc_chr; [|exact IH]. left. right. now left.
        * now apply r_elm_ref. }
  destruct H as [s H Hne|a s H|a s H|hh s H1 H2 H3 H4]; [now apply E|apply E; eapply ipv4_enc, H|..].
  - change (rej (p_skip_right user_info_p (p_elm_ref (chr "@"))) ([] ++ (bs "[" ++ s ++ bs "]") ++ t ++ rest) false).
    eapply r_skip_right2; [apply a_user; [apply gu_name; constructor|cbn; lit_stop|cbn; left; discriminate]|]. apply r_elm_ref. discriminate.
  - match goal with |- rej _ ?l _ => change l with ([] ++ l) end.
    eapply r_skip_right2; [apply a_user; [apply gu_name; constructor|cbn; lit_stop|cbn; left; discriminate]|]. apply r_elm_ref. discriminate.
Qed.
Lemma a_authority : forall a s rest, g_authority V6 a s -> plain_host (au_host a) -> starts (bs "/?#") rest -> acc (authority_p v6_parse) s rest a.
Proof.
  intros a s rest H Hp Hr. destruct H as [u su h sh p sp Hu Hh Hpo]. unfold authority_p. cbn [au_host] in Hp.
  eapply a_map_eq with (v := ((u, h), p)); [|reflexivity]. rewrite app_assoc.
  assert (Hport : starts (bs ":/?#") (sp ++ rest)).
  { destruct Hpo as [|n q (t & Ht & ->)]; [eapply starts_more; [|exact Hr]; intros x K; now right|left; reflexivity]. }
  eapply a_and; [eapply a_and|].
  - destruct Hu as [|u q (t & Ht & ->)].
    + eapply a_opt_none. eapply r_user; [exact Hh|exact Hr|]. destruct Hpo as [|n q (t & Ht & ->)]; [now left|right]. exists t. split; [reflexivity|apply Ht].
    + apply a_opt. eapply a_skip_right; [|apply a_elm_ref]. apply a_user; [exact Ht|cbn; lit_stop|]. intros _. cbn. left. discriminate.
  - now apply a_host.
  - destruct Hpo as [|n q (t & Ht & ->)].
    + eapply a_opt_none, r_skip_left1, r_elm_ref. eapply starts_not; [exact Hr|lit_notin].
    + apply a_opt. eapply a_skip_left; [apply a_elm_ref|]. apply a_port; [exact Ht|]. eapply starts_hd_not; [exact Hr|reflexivity].
Qed.
(** A port that is missing or out of range is dropped, and the colon is left. *)
Lemma a_authority_bad_port : forall u su h sh ds rest,
  g_opt (fun u s => exists t, g_user u t /\ s = t ++ bs "@") u su -> g_host V6 h sh -> plain_host h -> starts (bs "/?#") rest ->
  Forall digit ds -> ds = [] \/ (65535 < dec_value ds)%N -> acc (authority_p v6_parse) (su ++ sh) (bs ":" ++ ds ++ rest) (mk_authority h None u).
Proof.
  intros u su h sh ds rest Hu Hh Hp Hr Hd Hbad. unfold authority_p.
  eapply a_map_eq with (v := ((u, h), None)); [|reflexivity]. rewrite <- (app_nil_r (su ++ sh)).
  eapply a_and; [eapply a_and|].
  - destruct Hu as [|u q (t & Ht & ->)].
    + eapply a_opt_none. cbn [app]. eapply (@r_user _ _ (bs ":" ++ ds)); [exact Hh|exact Hr|]. right. now exists ds.
    + apply a_opt. eapply a_skip_right; [|apply a_elm_ref]. apply a_user; [exact Ht|cbn; lit_stop|]. intros _. cbn. left. discriminate.
  - apply a_host; [assumption..|]. left. reflexivity.
  - eapply a_opt_none. eapply r_skip_left2; [apply a_elm_ref|]. apply r_port; [exact Hd|eapply starts_hd_not; [exact Hr|reflexivity]|exact Hbad].
Qed.

(** ** Paths *)
Lemma path_stop : forall l rest, Forall g_seg l -> starts (bs "?#") rest -> stop c_pchar (List.concat l ++ rest).
Proof.
  intros l rest H Hr. destruct H as [|x l (t & -> & _) _]; [eapply starts_stop; [apply pchar_iff| |exact Hr]; reflexivity|]. cbn. lit_stop.
Qed.
Lemma a_slash : forall s l rest, g_seg s -> Forall g_seg l -> starts (bs "?#") rest -> acc slash_segment s (List.concat l ++ rest) s.
Proof.
  intros s l rest (t & -> & H) Hl Hr. unfold slash_segment. eapply a_collect. eapply a_and; [apply a_elm|].
  apply a_name. eapply a_enc0; [apply p_pchar|exact H|now apply path_stop].
Qed.
Lemma slash_chain : forall l rest, Forall g_seg l -> starts (bs "?#") rest -> chain slash_segment (List.concat l) rest l.
Proof.
  intros l rest H Hr. induction H as [|x l Hx H IH]; [constructor|]. cbn [List.concat].
  constructor; [now apply a_slash|now apply g_seg_ne|exact IH].
Qed.
Lemma string_chain : forall l rest, Forall g_seg l -> starts (bs "?#") rest -> chain (to_string slash_segment) (List.concat l) rest l.
Proof.
  intros l rest H Hr. induction H as [|x l Hx H IH]; [constructor|]. cbn [List.concat].
  constructor; [|now apply g_seg_ne|exact IH]. apply a_to_string; [now apply a_slash|now apply g_seg_ascii].
Qed.
Lemma r_slash : forall l, match l with [] => True | x :: _ => x <> chr "/" end -> rej slash_segment l false.
Proof. intros l H. apply r_collect, r_and1. now apply r_elm. Qed.
Lemma a_abempty : forall (b : bool) l rest, Forall g_seg l -> (b = true -> l <> []) -> starts (bs "?#") rest ->
  acc (path_abempty b) (List.concat l) rest (AbemptyPath l).
Proof.
  intros b l rest H Hb Hr. unfold path_abempty. apply a_name. eapply a_map_eq; [|reflexivity].
  eapply a_repeat; [now apply string_chain| |].
  - apply r_to_string, r_slash. eapply starts_not; [exact Hr|lit_notin].
  - destruct b; [|lia]. specialize (Hb eq_refl). destruct l; [congruence|cbn; lia].
Qed.
Lemma r_abempty : forall l, match l with [] => True | x :: _ => x <> chr "/" end -> rej (p_attempt (path_abempty true)) l false.
Proof.
  intros l H. eapply r_attempt, r_name, r_map. eapply (@r_many1 N _ (to_string slash_segment)). apply r_to_string. now apply r_slash.
Qed.
Lemma a_rootless : forall s l rest, enc c_pchar s -> s <> [] -> Forall g_seg l -> starts (bs "?#") rest ->
  acc path_rootless (s ++ List.concat l) rest (RootlessPath (s :: l)).
Proof.
  intros s l rest Hs Hne Hl Hr. unfold path_rootless. apply a_name. eapply a_map_eq with (v := s :: l); [|reflexivity].
  eapply a_map_panic with (v := s :: l).
  - eapply a_map_eq with (v := (s, l)); [|reflexivity]. eapply a_and.
    + apply a_name. eapply a_enc1; [apply p_pchar|exact Hs|exact Hne|now apply path_stop].
    + eapply a_many0; [now apply slash_chain|]. apply r_slash. eapply starts_not; [exact Hr|lit_notin].
  - apply strings_of_ascii. constructor; [eapply enc_ascii; [apply pchar_small|exact Hs]|].
    eapply Forall_impl; [|exact Hl]. intros x. apply g_seg_ascii.
Qed.
Lemma r_rootless : forall l, stop c_pchar l -> rej path_rootless l false.
Proof.
  intros l H. apply r_name, r_map, r_map_panic, r_map, r_and1, r_name. eapply r_enc1; [apply p_pchar|exact H].
Qed.
Lemma r_two_slashes : forall l, match l with x :: y :: _ => ~ (x = chr "/" /\ y = chr "/") | _ => True end ->
  forall A (q : parser N A), rej (p_attempt (p_skip_left (p_seqN (bs "//")) q)) l false.
Proof.
  intros l H A q. apply r_attempt_any. intros pre. unfold p_skip_left.
  assert (K : exists e c, p_seqN (bs "//") (pre ++ l) (length pre) = Failure e c).
  { pose proof (@h_seqN (bs "//") (fun _ s => s = bs "//") eq_refl (pre ++ l) (length pre) ltac:(rewrite app_length; lia)) as K.
    destruct (p_seqN (bs "//") (pre ++ l) (length pre)) as [v n|e c| |]; [exfalso|eauto|contradiction|contradiction].
    destruct K as [_ K]. rewrite skipn_app, Nat.sub_diag, skipn_all in K. cbn [skipn app] in K.
    destruct n as [|[|n]]; destruct l as [|x [|y l]]; try discriminate K. cbn in K. inv K. now apply H. }
  destruct K as (e & c & ->). eauto.
Qed.

(** ** Hierarchical part *)
(** The values that are read back. *)
Definition plain_hier (h : option hier_part) : Prop :=
  match h with
  | Some (mk_hier (Some a) _) => plain_host (au_host a)
  | Some (mk_hier None p) => ~ exists t, show_path p = bs "//" ++ t
  | None => True
  end.
Lemma g_path_show : forall p s, g_path p s -> show_path p = s.
Proof. intros p s H. now destruct H. Qed.
Lemma a_hier : forall h s rest, g_opt (g_hier V6) h s -> plain_hier h -> starts (bs "?#") rest -> acc (hier_part_p v6_parse) s rest h.
Proof.
  intros h s rest H Hp Hr. unfold hier_part_p.
  assert (P1 : forall l, match l with x :: y :: _ => ~ (x = chr "/" /\ y = chr "/") | _ => True end ->
    rej (p_attempt (p_map (p_and (p_skip_left (p_seqN (bs "//")) (authority_p v6_parse)) (path_abempty false))
      (fun ab => mk_hier (Some (fst ab)) (snd ab)))) l false).
  { intros l Hl. apply r_attempt_any. intros pre.
    destruct (@r_two_slashes l Hl _ (authority_p v6_parse) pre) as [e E]. unfold p_map, p_and. unfold p_attempt, with_uncommitted in E.
    destruct (p_skip_left (p_seqN (bs "//")) (authority_p v6_parse) (pre ++ l) (length pre)); try discriminate; eauto. }
  destruct H as [|h s H].
  - eapply a_opt_none. apply r_or.
    + apply P1. destruct rest as [|x [|y r]]; try exact I. intros [-> _]. cbn in Hr. repeat destruct Hr as [Hr|Hr]; try discriminate; contradiction.
    + apply r_map, r_or; [apply r_abempty; eapply starts_not; [exact Hr|lit_notin]|]. apply r_rootless.
      eapply starts_stop; [apply pchar_iff| |exact Hr]. reflexivity.
  - apply a_opt. destruct H as [a s l Ha Hl|p s H Hne].
    + apply a_or1, a_attempt. eapply a_map_eq with (v := (a, AbemptyPath l)); [|reflexivity]. rewrite app_assoc.
      eapply a_and; [eapply a_skip_left; [apply a_seqN|]|apply a_abempty; [exact Hl|discriminate|exact Hr]].
      apply a_authority; [exact Ha|exact Hp|]. destruct Hl as [|x l (t & -> & _) _]; [|left; reflexivity].
      eapply starts_more; [|exact Hr]. intros x K. now right.
    + apply a_or2.
      * apply P1. cbn in Hp. rewrite (g_path_show H) in Hp.
        destruct s as [|x s]; [congruence|]. destruct s as [|y s].
        -- cbn. destruct rest as [|y r]; [exact I|]. intros [_ ->]. cbn in Hr. repeat destruct Hr as [Hr|Hr]; try discriminate; contradiction.
        -- cbn. intros [-> ->]. apply Hp. now exists s.
      * eapply a_map_eq; [|reflexivity]. destruct H as [l Hl|s l Hs Hs' Hl].
        -- apply a_or1, a_attempt, a_abempty; [exact Hl| |exact Hr]. intros _ ->. now apply Hne.
        -- apply a_or2; [|now apply a_rootless]. apply r_abempty. destruct Hs as [|x s Hx _|]; [congruence| |discriminate].
           cbn. intros ->. revert Hx. lit_class.
Qed.

(** ** Query and fragment *)
Lemma a_code_point : forall s rest, enc c_query s -> stop c_query rest -> acc code_point s rest s.
Proof.
  intros s rest H Hr. unfold code_point. apply a_to_string; [eapply a_enc0; [apply p_query_piece|exact H|exact Hr]|].
  eapply enc_ascii; [apply query_small|exact H].
Qed.
Lemma a_param : forall kv s rest, g_param kv s -> starts (bs "&#") rest -> acc key_values s rest kv.
Proof.
  intros kv s rest H Hr. assert (Hs : stop c_query rest) by (eapply starts_stop; [apply query_iff| |exact Hr]; reflexivity).
  unfold key_values. destruct H as [k H|k v H1 H2].
  - rewrite <- (app_nil_r k) at 1. eapply a_and; [now apply a_code_point|]. eapply a_opt_none, r_skip_left1, r_elm.
    eapply starts_not; [exact Hr|lit_notin].
  - eapply a_and; [apply a_code_point; [exact H1|cbn; lit_stop]|]. apply a_opt. eapply a_skip_left; [apply a_elm|]. now apply a_code_point.
Qed.
Lemma params_chain : forall q s, g_params q s -> forall rest, starts (bs "#") rest ->
  exists kv q' t u, q = kv :: q' /\ s = t ++ u /\ g_param kv t /\ starts (bs "&#") (u ++ rest) /\
    chain (p_skip_left (p_elm (chr "&")) key_values) u rest q'.
Proof.
  intros q s H rest Hr. induction H as [kv s H|kv s q t H H' (kv2 & q' & t2 & u & -> & -> & G & S & IH)].
  - exists kv, [], s, []. split; [reflexivity|]. split; [now rewrite app_nil_r|]. split; [exact H|]. split; [|constructor].
    eapply starts_more; [|exact Hr]. intros x K. now right.
  - exists kv, (kv2 :: q'), s, (bs "&" ++ t2 ++ u). split; [reflexivity|]. split; [reflexivity|]. split; [exact H|]. split; [left; reflexivity|].
    rewrite app_assoc. constructor; [|discriminate|exact IH]. eapply a_skip_left; [apply a_elm|]. now apply a_param.
Qed.
Lemma a_query : forall q s rest, g_params q s -> starts (bs "#") rest -> acc query_p s rest q.
Proof.
  intros q s rest H Hr. destruct (params_chain H rest Hr) as (kv & q' & t & u & -> & -> & G & S & C). unfold query_p.
  eapply a_map_eq with (v := (kv, q')); [|reflexivity]. eapply a_and; [now apply a_param|]. eapply a_many0; [exact C|].
  apply r_skip_left1, r_elm. eapply starts_not; [exact Hr|lit_notin].
Qed.
Lemma a_fragment : forall s rest, enc c_fragment s -> stop c_fragment rest -> acc fragment s rest s.
Proof.
  intros s rest H Hr. unfold fragment. apply a_name, a_to_string; [eapply a_enc0; [apply p_fragment_piece|exact H|exact Hr]|].
  eapply enc_ascii; [apply fragment_small|exact H].
Qed.

(** ** URI *)
Definition plain_uri (u : uri) : Prop := plain_hier (u_hier u).
Lemma a_uri : forall u s, g_uri V6 u s -> plain_uri u -> acc (uri_p v6_parse) s [] u.
Proof.
  intros u s H Hp. destruct H as [c sc h sh q sq f sf Hc Hh Hq Hf]. cbn in Hp. unfold uri_p.
  eapply a_map_eq with (v := (((c, h), q), f)); [|reflexivity].
  replace (sc ++ bs ":" ++ sh ++ sq ++ sf) with ((((sc ++ bs ":") ++ sh) ++ sq) ++ sf) by now rewrite <- !app_assoc.
  assert (Sf : starts (bs "#") (sf ++ [])) by (destruct Hf as [|f s (t & Ht & ->)]; [exact I|left; reflexivity]).
  assert (Sq : starts (bs "?#") (sq ++ sf ++ [])).
  { destruct Hq as [|q s (t & Ht & ->)]; [|left; reflexivity]. eapply starts_more; [|exact Sf]. intros x K. now right. }
  eapply a_and; [eapply a_and; [eapply a_and; [eapply a_skip_right; [|apply a_elm]|]|]|].
  - destruct Hc as [|c s [-> Hs]]; [eapply a_opt_none, r_scheme; reflexivity|]. apply a_opt, a_scheme; [now split|reflexivity].
  - apply a_hier; [exact Hh|exact Hp|exact Sq].
  - destruct Hq as [|q s (t & Ht & ->)]; [eapply a_opt_none, r_skip_left1, r_elm; eapply starts_not; [exact Sf|lit_notin]|].
    apply a_opt. eapply a_skip_left; [apply a_elm|]. now apply a_query.
  - destruct Hf as [|f s (t & [-> Ht] & ->)]; [eapply a_opt_none, r_skip_left1, r_elm; exact I|].
    apply a_opt. eapply a_skip_left; [apply a_elm|]. now apply a_fragment.
Qed.
End V6.
