(** C18-C34: literals, classes, sets, take family, collect, offsets, conversions, errors, cache, position independence. *)
From Verif Require Import Base Core Comb Closure Shift RepFacts LitFacts Cache PropsA PropsB.
Set Implicit Arguments.
Local Open Scope string_scope.
Local Open Scope nat_scope.
Local Open Scope list_scope.

(** ** C18 *)
(** seq and tag, for any element type with decidable equality. *)
Theorem C18_literal_success : forall I (eqb : I -> I -> bool) s inp off v n,
  (forall a b, eqb a b = true <-> a = b) -> off <= length inp ->
  (p_seq eqb s inp off = Success v n <-> v = s /\ n = length s /\ prefix s (skipn off inp)) /\
  (p_tag_by eqb s inp off = Success v n <-> v = s /\ n = length s /\ prefix s (skipn off inp)).
Proof.
  intros I eqb s inp off v n He Ho.
  assert (K : erase (tag_no_case_loop eqb s (skipn off inp) off s (skipn off inp) 0) = ShSuccess v n <->
              v = s /\ n = length s /\ prefix s (skipn off inp)).
  { rewrite lit_spec by exact He. split.
    - intros [[H E]|[(a & c & s2 & x & r & _ & _ & _ & E)|(c & s2 & _ & E)]]; inv E; auto.
    - intros (-> & -> & H). left. auto. }
  unfold p_seq, p_tag_by. rewrite ps_input_ok by exact Ho. rewrite <- !erase_success.
  rewrite (@erase_seq_nocase _ eqb s (skipn off inp) off (skipn off inp) off).
  rewrite (@erase_tag_nocase _ eqb s (skipn off inp) off (skipn off inp) off).
  split; exact K.
Qed.

(** Failure: committed iff a proper non-empty part matched and then a different element follows; otherwise uncommitted:
    the first element differs, or the input ends inside the literal. *)
Theorem C18_literal_failure : forall I (eqb : I -> I -> bool) s inp off c,
  (forall a b, eqb a b = true <-> a = b) -> off <= length inp ->
  let spec :=
    (c = Committed /\ exists a x s2 y r, a <> [] /\ s = a ++ x :: s2 /\ skipn off inp = a ++ y :: r /\ x <> y) \/
    (c = Uncommitted /\ ((exists x s2 y r, s = x :: s2 /\ skipn off inp = y :: r /\ x <> y) \/
                         (exists x s2, s = skipn off inp ++ x :: s2))) in
  ((exists e, p_seq eqb s inp off = Failure e c) <-> spec) /\
  ((exists e, p_tag_by eqb s inp off = Failure e c) <-> spec).
Proof.
  intros I eqb s inp off c He Ho spec.
  assert (K : erase (tag_no_case_loop eqb s (skipn off inp) off s (skipn off inp) 0) = ShFailure c <-> spec).
  { rewrite lit_spec by exact He. unfold spec. split.
    - intros [[H E]|[(a & x & s2 & y & r & H1 & H2 & H3 & E)|(x & s2 & H & E)]]; inv E.
      + destruct a as [|z a]; [right|left]; split; auto.
        * left. cbn in *. eauto 8.
        * exists (z :: a), x, s2, y, r. repeat split; auto; discriminate.
      + right. split; [reflexivity|]. right. eauto.
    - intros [(-> & a & x & s2 & y & r & Hn & H1 & H2 & H3)|(-> & [(x & s2 & y & r & H1 & H2 & H3)|(x & s2 & H)])].
      + right. left. exists a, x, s2, y, r. repeat split; auto. destruct a; [congruence|reflexivity].
      + right. left. exists [], x, s2, y, r. repeat split; auto.
      + right. right. exists x, s2. auto. }
  unfold p_seq, p_tag_by. rewrite ps_input_ok by exact Ho. rewrite <- !erase_failure.
  rewrite (@erase_seq_nocase _ eqb s (skipn off inp) off (skipn off inp) off).
  rewrite (@erase_tag_nocase _ eqb s (skipn off inp) off (skipn off inp) off).
  split; exact K.
Qed.

Example C18_example :
  p_seqN (bs "abc") (bs "xabcd") 1 = Success (bs "abc") 3 /\ prefix (bs "abc") (skipn 1 (bs "xabcd")) /\
  erase (p_seqN (bs "abc") (bs "abd") 0) = ShFailure Committed /\
  erase (p_tag (bs "abc") (bs "ab") 0) = ShFailure Uncommitted /\
  erase (p_tag (bs "abc") (bs "xb") 0) = ShFailure Uncommitted.
Proof. repeat split; try (vm_compute; reflexivity). exists (bs "d"). reflexivity. Qed.

Print Assumptions C18_literal_success.
Print Assumptions C18_literal_failure.

(** ** C19 *)
(** The same character, or the two cases of one ASCII letter. *)
Definition same_letter (x y : N) : Prop :=
  x = y \/ (exists k, k < 26 /\ x = N.of_nat (65 + k) /\ y = N.of_nat (97 + k)) \/
           (exists k, k < 26 /\ y = N.of_nat (65 + k) /\ x = N.of_nat (97 + k)).

Lemma eq_ignore_case_iff : forall x y, eq_ignore_ascii_case x y = true <-> same_letter x y.
Proof.
  intros x y. unfold eq_ignore_ascii_case, ascii_lower, in_range. rewrite N.eqb_eq. split.
  - intros H. destruct (N.leb_spec 65 x), (N.leb_spec x 90), (N.leb_spec 65 y), (N.leb_spec y 90); cbn in H;
      try (left; lia); right.
    + left. exists (N.to_nat (x - 65)). lia.
    + right. exists (N.to_nat (y - 65)). lia.
  - intros [->|[(k & Hk & -> & ->)|(k & Hk & -> & ->)]]; [reflexivity| |].
    + destruct (N.leb_spec 65 (N.of_nat (65 + k))), (N.leb_spec (N.of_nat (65 + k)) 90),
        (N.leb_spec 65 (N.of_nat (97 + k))), (N.leb_spec (N.of_nat (97 + k)) 90); cbn; lia.
    + destruct (N.leb_spec 65 (N.of_nat (65 + k))), (N.leb_spec (N.of_nat (65 + k)) 90),
        (N.leb_spec 65 (N.of_nat (97 + k))), (N.leb_spec (N.of_nat (97 + k)) 90); cbn; lia.
Qed.

Lemma Forall2_weaken : forall A B (P Q : A -> B -> Prop) l m,
  (forall x y, P x y -> Q x y) -> Forall2 P l m -> Forall2 Q l m.
Proof. intros A B P Q l m H F. induction F; constructor; auto. Qed.

Theorem C19_tag_no_case : forall s inp off v n, off <= length inp ->
  p_tag_no_case s inp off = Success v n <->
  v = s /\ n = length s /\ exists a r, skipn off inp = a ++ r /\ Forall2 same_letter s a.
Proof.
  intros s inp off v n Ho. unfold p_tag_no_case, p_tag_no_case_by. rewrite ps_input_ok by exact Ho.
  rewrite <- erase_success, nocase_loop_spec. split.
  - intros [(a & r & H1 & H2 & E)|[(s1 & c & s2 & a & x & r & _ & _ & _ & _ & E)|(s1 & c & s2 & _ & _ & E)]]; inv E.
    repeat split. exists a, r. split; [exact H1|].
    eapply Forall2_weaken; [|exact H2]. intros x y Hxy. now apply eq_ignore_case_iff.
  - intros (-> & -> & a & r & H1 & H2). left. exists a, r. repeat split; auto.
    eapply Forall2_weaken; [|exact H2]. intros x y Hxy. now apply eq_ignore_case_iff.
Qed.
Example C19_example :
  p_tag_no_case (bs "aB1[") (bs "Ab1[x") 0 = Success (bs "aB1[") 4 /\
  Forall2 same_letter (bs "aB1[") (bs "Ab1[") /\
  erase (p_tag_no_case (bs "[") (bs "{") 0) = ShFailure Uncommitted.
Proof.
  split; [vm_compute; reflexivity|]. split; [|vm_compute; reflexivity].
  repeat (apply Forall2_cons; [apply eq_ignore_case_iff; vm_compute; reflexivity|]). apply Forall2_nil.
Qed.

Print Assumptions C19_tag_no_case.

(** ** C20 *)
(** [accepts_class p l]: p consumes exactly one element, which must be in the list, and otherwise fails uncommitted. *)
Definition accepts_class (p : parser N N) (l : list N) : Prop :=
  forall inp off, off <= length inp ->
  (forall x n, p inp off = Success x n <-> n = 1 /\ nth_error inp off = Some x /\ In x l) /\
  ((forall x, nth_error inp off = Some x -> ~ In x l) <-> fails_uncommitted p inp off).

Lemma accepts_pred : forall f l, (forall x, f x = true <-> In x l) -> accepts_class (p_elm_pred f) l.
Proof.
  intros f l Hf inp off Ho. destruct (elm_pred_spec f inp Ho) as [(x & H1 & H2 & H3)|(H1 & e & H2)].
  - split.
    + intros y n. rewrite H3. split; [intros E; inv E; repeat split; auto; now apply Hf|].
      intros (-> & E & _). congruence.
    + split; [intros H; exfalso; apply (H x H1); now apply Hf|intros [e E]; congruence].
  - split.
    + intros y n. rewrite H2. split; [discriminate|]. intros (_ & E & Hy). apply H1 in E. apply Hf in Hy. congruence.
    + split; [intros _; now exists e|]. intros _ x E Hx. apply H1 in E. apply Hf in Hx. congruence.
Qed.

Definition lower := bs "abcdefghijklmnopqrstuvwxyz".
Definition upper := bs "ABCDEFGHIJKLMNOPQRSTUVWXYZ".

Ltac class := apply class_ext; [vm_compute; reflexivity|vm_compute; reflexivity|];
  let x := fresh in let H := fresh in intros x H;
  unfold is_ascii_whitespace, is_ascii_multi_space, is_ascii_space, is_ascii_alpha, is_ascii_digit,
    is_ascii_alpha_digit, is_ascii_hex_digit, is_ascii_oct_digit, is_ascii_punctuation, is_ascii_control,
    is_ascii_alpha_uppercase, is_ascii_alpha_lowercase, is_ascii_digit_zero, in_range;
  repeat match goal with
  | |- context [(?a <=? ?b)%N] => destruct (N.leb_spec a b); try lia
  | |- context [(?a =? ?b)%N] => destruct (N.eqb_spec a b); try lia
  end; reflexivity.

Theorem C20_classes :
  accepts_class p_elm_space [32; 9]%N /\
  accepts_class p_elm_multi_space [32; 9; 10; 13]%N /\
  accepts_class p_elm_alpha (upper ++ lower) /\
  accepts_class p_elm_alpha_digit (bs "0123456789" ++ upper ++ lower) /\
  accepts_class p_elm_digit (bs "0123456789") /\
  accepts_class p_elm_hex_digit (bs "0123456789ABCDEFabcdef").
Proof.
  split; [|split; [|split; [|split; [|split]]]]; apply accepts_pred; class.
Qed.

(** Predicates of the Element trait that are not used by an element parser. *)
Theorem C20_predicates : forall x,
  (is_ascii_whitespace x = true <-> In x [32; 9; 10; 13; 12]%N) /\
  (is_ascii_alpha_uppercase x = true <-> In x upper) /\
  (is_ascii_alpha_lowercase x = true <-> In x lower) /\
  (is_ascii_punctuation x = true <-> In x (bs "!#$%&'()*+,-./:;<=>?@[\]^_`{|}~" ++ [34%N])) /\
  (is_ascii_control x = true <-> (x < 32 \/ x = 127)%N) /\
  (is_ascii_graphic x = true <-> (33 <= x <= 126)%N) /\
  (is_ascii_char x = true <-> (x < 128)%N).
Proof.
  intros x. split; [revert x; class|]. split; [revert x; class|]. split; [revert x; class|]. split; [revert x; class|].
  split; [|split];
    unfold is_ascii_control, is_ascii_graphic, is_ascii_char, in_range;
    rewrite ?orb_true_iff, ?andb_true_iff, ?N.leb_le, ?N.eqb_eq; lia.
Qed.

(** digit 1-9 (filter over digit) is right. *)
Theorem C20_digit_1_9 : forall inp off x n, off <= length inp ->
  p_elm_digit_1_9 inp off = Success x n <-> n = 1 /\ nth_error inp off = Some x /\ In x (bs "123456789").
Proof.
  intros inp off x n Ho.
  destruct C20_classes as (_ & _ & _ & _ & H & _). destruct (H inp off Ho) as [H1 _].
  assert (R : p_elm_digit_1_9 inp off = p_filter_not p_elm_digit is_ascii_digit_zero inp off).
  { unfold p_elm_digit_1_9, p_elm_digit_1_9_ref, p_filter_not, p_filter, p_elm_digit, p_elm_pred, p_elm_digit_ref, p_map.
    destruct (p_elm_pred_ref is_ascii_digit inp off) as [v m|e c| |]; try reflexivity.
    destruct (negb (is_ascii_digit_zero v)); reflexivity. }
  rewrite R. unfold p_filter_not. rewrite C09_filter_success. rewrite H1.
  assert (Z : is_ascii_digit_zero x = true <-> In x [48%N]) by (revert x; class).
  split.
  - intros ((-> & E & Hx) & Hz). repeat split; auto. cbn in Hx.
    destruct Hx as [<-|Hx]; [discriminate|]. exact Hx.
  - intros (-> & E & Hx). repeat split; auto.
    + now right.
    + apply negb_true_iff. destruct (is_ascii_digit_zero x) eqn:Ez; [|reflexivity].
      pose proof (proj1 Z eq_refl) as Ez'. cbn in Ez'. destruct Ez' as [<-|[]]. vm_compute in Hx. intuition discriminate.
Qed.

(** Full statement for octal digits: accepts_class p_elm_oct_digit (bs "01234567").  False: '8' is accepted. *)
Theorem C20_oct_digit_refuted :
  exists inp x, parse p_elm_oct_digit inp = Success x 1 /\ ~ In x (bs "01234567").
Proof.
  exists (bs "8"), (chr "8"). split; [vm_compute; reflexivity|]. vm_compute. intuition discriminate.
Qed.
Theorem C20_oct_digit_partial : accepts_class p_elm_oct_digit (bs "012345678").
Proof. apply accepts_pred. class. Qed.

(** Full statement for is_ascii_digit_non_zero: true iff the element is one of 1-9.  False: every non-'0' is. *)
Theorem C20_non_zero_digit_refuted : exists x, is_ascii_digit_non_zero x = true /\ ~ In x (bs "123456789").
Proof. exists (chr "a"). split; [reflexivity|]. vm_compute. intuition discriminate. Qed.

(** The bit test of the byte elements is the range test. *)
Theorem C20_ascii_u8 : forall x, (x < 256)%N -> is_ascii_u8 x = true <-> (x < 128)%N.
Proof.
  intros x H. assert (E : x = N.of_nat (N.to_nat x)) by now rewrite N2Nat.id.
  assert (L : N.to_nat x < 256) by lia. rewrite E. generalize dependent (N.to_nat x). clear. intros n _ L.
  enough (G : forallb (fun n => Bool.eqb (is_ascii_u8 (N.of_nat n)) (N.of_nat n <? 128)%N) (seq 0 256) = true).
  { rewrite forallb_forall in G. specialize (G n ltac:(apply in_seq; lia)). apply Bool.eqb_prop in G. rewrite G. apply N.ltb_lt. }
  vm_compute. reflexivity.
Qed.
Example C20_ascii_example : is_ascii_u8 127%N = true /\ is_ascii_u8 128%N = false /\ is_ascii_u8 64%N = true /\ is_ascii_u8 200%N = false.
Proof. repeat split. Qed.
Example C20_example :
  p_elm_hex_digit (bs "xF") 1 = Success (chr "F") 1 /\ fails_uncommitted p_elm_hex_digit (bs "xg") 1 /\
  fails_uncommitted p_elm_hex_digit (bs "x") 1.
Proof.
  split; [vm_compute; reflexivity|].
  split; eexists; vm_compute; reflexivity.
Qed.

Print Assumptions C20_classes.
Print Assumptions C20_ascii_u8.
Print Assumptions C20_predicates.
Print Assumptions C20_digit_1_9.
Print Assumptions C20_oct_digit_refuted.
Print Assumptions C20_oct_digit_partial.
Print Assumptions C20_non_zero_digit_refuted.

(** ** C21 *)
(** [accepts_iff p P]: consumes exactly one element satisfying P, and otherwise fails uncommitted. *)
Definition accepts_iff (p : parser N N) (P : N -> Prop) : Prop :=
  forall inp off, off <= length inp ->
  (forall x n, p inp off = Success x n <-> n = 1 /\ nth_error inp off = Some x /\ P x) /\
  ((forall x, nth_error inp off = Some x -> ~ P x) <-> fails_uncommitted p inp off).

Lemma accepts_set : forall f (P : N -> Prop), (forall x, f x = true <-> P x) -> accepts_iff (p_elm_of_set f) P.
Proof.
  intros f P Hf inp off Ho. destruct (elm_of_set_spec f inp Ho) as [(x & H1 & H2 & H3)|(H1 & e & H2)].
  - split.
    + intros y n. rewrite H3. split; [intros E; inv E; repeat split; auto; now apply Hf|].
      intros (-> & E & _). congruence.
    + split; [intros H; exfalso; apply (H x H1); now apply Hf|intros [e E]; congruence].
  - split.
    + intros y n. rewrite H2. split; [discriminate|]. intros (_ & E & Hy). apply H1 in E. apply Hf in Hy. congruence.
    + split; [intros _; now exists e|]. intros _ x E Hx. apply H1 in E. apply Hf in Hx. congruence.
Qed.
Lemma accepts_none_set : forall f (P : N -> Prop), (forall x, f x = true <-> P x) ->
  accepts_iff (p_none_of_set f) (fun x => ~ P x).
Proof.
  intros f P Hf inp off Ho.
  assert (Hn : forall x, f x = false <-> ~ P x).
  { intros x. rewrite <- Hf. destruct (f x); split; congruence. }
  destruct (none_of_set_spec f inp Ho) as [(x & H1 & H2 & H3)|(H1 & e & H2)].
  - split.
    + intros y n. rewrite H3. split; [intros E; inv E; repeat split; auto; now apply Hn|].
      intros (-> & E & _). congruence.
    + split; [intros H; exfalso; apply (H x H1); now apply Hn|intros [e E]; congruence].
  - split.
    + intros y n. rewrite H2. split; [discriminate|]. intros (_ & E & Hy). apply H1 in E. apply Hf in E. tauto.
    + split; [intros _; now exists e|]. intros _ x E Hx. apply H1 in E. apply Hf in E. tauto.
Qed.

Theorem C21_sets :
  (forall l, accepts_iff (p_elm_of l) (fun x => In x l)) /\
  (forall l, accepts_iff (p_none_of l) (fun x => ~ In x l)) /\
  (forall a b, accepts_iff (p_elm_in a b) (fun x => a <= x <= b)%N) /\
  (forall a b, accepts_iff (p_elm_from_until a b) (fun x => a <= x < b)%N).
Proof.
  split; [|split; [|split]].
  - intros l. apply accepts_set. apply set_contains_in.
  - intros l. apply accepts_none_set. apply set_contains_in.
  - intros a b. apply accepts_set. intros x. unfold range_in_contains. rewrite andb_true_iff, !N.leb_le. tauto.
  - intros a b. apply accepts_set. intros x. unfold range_contains. rewrite andb_true_iff, N.leb_le, N.ltb_lt. tauto.
Qed.

(** The range kinds accepted by elm_of: a.., ..b, ..=b and .. *)
Theorem C21_ranges :
  (forall a, accepts_iff (p_elm_of_set (range_from_contains a)) (fun x => a <= x)%N) /\
  (forall b, accepts_iff (p_elm_of_set (range_to_contains b)) (fun x => x < b)%N) /\
  (forall b, accepts_iff (p_elm_of_set (range_to_in_contains b)) (fun x => x <= b)%N) /\
  accepts_iff (p_elm_of_set full_contains) (fun _ => True) /\
  (forall e, accepts_iff (p_elm_pred (fun x => N.eqb x e)) (fun x => x = e)).
Proof.
  split; [|split; [|split; [|split]]].
  - intros a. apply accepts_set. intros x. apply N.leb_le.
  - intros b. apply accepts_set. intros x. apply N.ltb_lt.
  - intros b. apply accepts_set. intros x. apply N.leb_le.
  - apply accepts_set. unfold full_contains. tauto.
  - intros e inp off Ho. pose proof (accepts_pred (fun x => N.eqb x e) [e]) as A.
    assert (Hf : forall x, (x =? e)%N = true <-> In x [e]).
    { intros x. rewrite N.eqb_eq. cbn. intuition. }
    specialize (A Hf inp off Ho). destruct A as [A1 A2]. split.
    + intros x n. rewrite A1. cbn. intuition.
    + rewrite <- A2. cbn. split; intros H x E; specialize (H x E); intuition.
Qed.

Example C21_example :
  p_elm_in 97 122 (bs "Az") 1 = Success (chr "z") 1 /\ fails_uncommitted (p_elm_from_until 97 122) (bs "Az") 1 /\
  p_none_of (bs "ab") (bs "c") 0 = Success (chr "c") 1 /\ fails_uncommitted (p_none_of (bs "ab")) (bs "") 0.
Proof.
  split; [vm_compute; reflexivity|]. split; [eexists; vm_compute; reflexivity|].
  split; [vm_compute; reflexivity|]. eexists; vm_compute; reflexivity.
Qed.

Print Assumptions C21_sets.
Print Assumptions C21_ranges.

(** ** C22 *)
Theorem C22_take : forall I n (inp : list I) off v l, off <= length inp ->
  (p_take n inp off = Success v l <-> l = n /\ off + n <= length inp /\ v = firstn n (skipn off inp)) /\
  (fails_uncommitted (p_take n) inp off <-> length inp < off + n).
Proof.
  intros I n inp off v l Ho. unfold p_take, fails_uncommitted, failed_with_uncommitted.
  rewrite ps_input_ok by exact Ho. rewrite skipn_length.
  destruct (Nat.leb_spec n (length inp - off)) as [Hn|Hn].
  - rewrite slice_with_len_ok by lia. split; split.
    + intros E; inv E. repeat split. lia.
    + intros (-> & _ & ->). reflexivity.
    + intros [e E]. discriminate.
    + lia.
  - split; split.
    + discriminate.
    + lia.
    + lia.
    + eauto.
Qed.

Theorem C22_skip : forall I n (inp : list I) off l, off <= length inp ->
  (p_skip n inp off = Success tt l <-> l = n /\ off + n <= length inp) /\
  (fails_uncommitted (p_skip n) inp off <-> length inp < off + n).
Proof.
  intros I n inp off l Ho. unfold p_skip, fails_uncommitted, failed_with_uncommitted.
  rewrite ps_input_ok by exact Ho. rewrite skipn_length.
  destruct (Nat.leb_spec n (length inp - off)) as [Hn|Hn].
  - split; split.
    + intros E; inv E. repeat split. lia.
    + intros (-> & _). reflexivity.
    + intros [e E]. discriminate.
    + lia.
  - split; split.
    + discriminate.
    + lia.
    + lia.
    + eauto.
Qed.

Theorem C22_take_join : forall I n m (inp : list I) off v l, off <= length inp ->
  p_map (p_and (p_take n) (p_take m)) (fun ab => fst ab ++ snd ab) inp off = Success v l <->
  p_take (n + m) inp off = Success v l.
Proof.
  intros I n m inp off v l Ho. rewrite (proj1 (C22_take (n + m) inp v l Ho)). split.
  - intros H. unfold p_map, p_and in H.
    destruct (p_take n inp off) as [a n1|e c| |] eqn:E1; try discriminate.
    apply (proj1 (C22_take n inp a n1 Ho)) in E1. destruct E1 as (-> & H1 & ->).
    destruct (p_take m inp (off + n)) as [b n2|e c| |] eqn:E2; try discriminate.
    apply (proj1 (C22_take m inp b n2 H1)) in E2. destruct E2 as (-> & H2 & ->).
    cbn in H. inv H. repeat split; [lia|]. rewrite <- skipn_skipn'. apply firstn_skipn_app.
  - intros (-> & H & ->). unfold p_map, p_and.
    rewrite (proj2 (proj1 (C22_take n inp (firstn n (skipn off inp)) n Ho))) by (repeat split; lia).
    assert (H1 : off + n <= length inp) by lia.
    rewrite (proj2 (proj1 (C22_take m inp (firstn m (skipn (off + n) inp)) m H1))) by (repeat split; lia).
    cbn. rewrite <- skipn_skipn'. now rewrite firstn_skipn_app.
Qed.
Example C22_example :
  p_take 2 (bs "xabc") 1 = Success (bs "ab") 2 /\ fails_uncommitted (p_take 4) (bs "xabc") 1 /\
  p_skip 3 (bs "xabc") 1 = Success tt 3.
Proof. split; [reflexivity|]. split; [eexists; vm_compute; reflexivity|reflexivity]. Qed.

Print Assumptions C22_take.
Print Assumptions C22_skip.
Print Assumptions C22_take_join.

(** ** C23 *)
(** [p] is the longest prefix of [l] all of whose elements satisfy [f]. *)
Definition longest_prefix {I} (f : I -> bool) (l p : list I) : Prop :=
  exists r, l = p ++ r /\ (forall x, In x p -> f x = true) /\ match r with [] => True | y :: _ => f y = false end.

(** Full statement: take_while0 f returns [p] and consumes [length p] where [longest_prefix f rest p].  False: all
    matching elements of the rest of the input are counted, not only the leading ones. *)
Theorem C23_longest_prefix_refuted :
  exists (f : N -> bool) inp v n p,
    longest_prefix f inp p /\ parse (p_take_while0 f) inp = Success v n /\ (v <> p /\ n <> length p) /\
    parse (p_take_while1 f) inp = Success v n /\ parse (p_take_while_n_m 0 2 f) inp = Success v n.
Proof.
  exists is_ascii_digit, (bs "1a2"), (bs "1a"), 2, (bs "1"). split; [exists (bs "a2"); repeat split; auto|].
  - intros x [<-|[]]. reflexivity.
  - repeat split; vm_compute; congruence.
Qed.
(** It even returns elements that are not at the current position and consumes something else. *)
Theorem C23_not_a_prefix_refuted :
  exists (f : N -> bool) inp v n, parse (p_take_while1 f) inp = Success v n /\ ~ prefix v inp.
Proof.
  exists is_ascii_digit, (bs "ab12"), (bs "12"), 2. split; [vm_compute; reflexivity|].
  intros [r H]. discriminate.
Qed.

(** Exact behaviour of the three parsers. *)
Theorem C23_take_while_exact : forall I (f : I -> bool) inp off n m, off <= length inp ->
  let rest := skipn off inp in
  let k := length (filter f rest) in
  ((forall x, In x rest -> f x = false) /\ p_take_while0 f inp off = Success [] 0 /\
     fails_uncommitted (p_take_while1 f) inp off /\ fails_uncommitted (p_take_while_n_m n m f) inp off) \/
  (exists a x r, rest = a ++ x :: r /\ (forall y, In y a -> f y = false) /\ f x = true /\
     p_take_while0 f inp off = Success (firstn k (x :: r)) k /\
     p_take_while1 f inp off = Success (firstn k (x :: r)) k /\
     (if (n <=? k) && (k <=? m) then p_take_while_n_m n m f inp off = Success (firstn k (x :: r)) k
      else fails_uncommitted (p_take_while_n_m n m f) inp off)).
Proof.
  intros I f inp off n m Ho rest k. subst rest k.
  unfold p_take_while0, p_take_while1, p_take_while_n_m, fails_uncommitted, failed_with_uncommitted.
  rewrite ps_input_ok by exact Ho.
  destruct (tw_loop f (skipn off inp) 0 None 0) as [[s|] l] eqn:E.
  - right. pose proof (tw_loop_slice _ _ E) as [L S]. rewrite S.
    pose proof (tw_loop_inv _ _ _ _ _ E) as [Hl _]. cbn in Hl. subst l.
    apply tw_loop_start in E. destruct E as (a & x & r & Hr & Ha & Hx & ->). cbn [Nat.add] in *.
    exists a, x, r. repeat split; auto.
    + rewrite Hr at 2. rewrite skipn_app, skipn_all, Nat.sub_diag. reflexivity.
    + rewrite Hr at 2. rewrite skipn_app, skipn_all, Nat.sub_diag. reflexivity.
    + assert (Hv : skipn (length a) (skipn off inp) = x :: r).
      { rewrite Hr. rewrite skipn_app, skipn_all, Nat.sub_diag. reflexivity. }
      rewrite Hv. assert (Hk : length (firstn (length (filter f (skipn off inp))) (x :: r)) = length (filter f (skipn off inp))).
      { apply firstn_length_le. rewrite Hr in L. rewrite app_length in L. rewrite Hr. lia. }
      rewrite Hk. destruct ((n <=? _) && (_ <=? m)); [reflexivity|eauto].
  - left. pose proof (tw_loop_inv _ _ _ _ _ E) as [_ Hf]. repeat split; eauto.
    + intros x Hx. destruct (f x) eqn:Ef; [|reflexivity]. exfalso.
      assert (Hin : In x (filter f (skipn off inp))) by (apply filter_In; auto). rewrite Hf in Hin. destruct Hin.
    + rewrite slice_with_len_ok by lia. reflexivity.
Qed.

(** The longest-prefix reading holds when no matching element follows the prefix.  Missing: inputs where one does. *)
Theorem C23_longest_prefix_partial : forall I (f : I -> bool) inp off p r n m, off <= length inp ->
  skipn off inp = p ++ r -> (forall x, In x p -> f x = true) -> (forall x, In x r -> f x = false) ->
  longest_prefix f (skipn off inp) p /\
  p_take_while0 f inp off = Success p (length p) /\
  (p <> [] -> p_take_while1 f inp off = Success p (length p)) /\
  (p <> [] -> n <= length p <= m -> p_take_while_n_m n m f inp off = Success p (length p)).
Proof.
  intros I f inp off p r n m Ho Hr Hp Hn.
  split.
  { exists r. repeat split; auto. destruct r; [exact Logic.I|apply Hn; now left]. }
  assert (Hk : length (filter f (skipn off inp)) = length p).
  { rewrite Hr, filter_app, app_length.
    assert (E1 : filter f p = p).
    { clear -Hp. induction p as [|x p IH]; [reflexivity|]. cbn. rewrite (Hp x) by now left. f_equal. apply IH.
      intros y Hy. apply Hp. now right. }
    assert (E2 : filter f r = []).
    { clear -Hn. induction r as [|x r IH]; [reflexivity|]. cbn. rewrite (Hn x) by now left. apply IH.
      intros y Hy. apply Hn. now right. }
    rewrite E1, E2. cbn. lia. }
  pose proof (C23_take_while_exact f inp n m Ho) as E. cbn zeta in E. rewrite Hk in E.
  destruct E as [(H1 & H2 & _)|(a & x & r' & E & Ha & Hx & H0 & H1 & H2)].
  - destruct p as [|x p].
    + repeat split; auto; congruence.
    + exfalso. specialize (H1 x). rewrite Hr in H1. rewrite (Hp x) in H1 by now left.
      discriminate H1. now left.
  - destruct p as [|y p].
    + exfalso. cbn in Hr. rewrite Hr in E. subst r. specialize (Hn x). rewrite Hx in Hn. discriminate Hn.
      rewrite E. apply in_or_app. right. now left.
    + assert (a = []).
      { destruct a as [|z a]; [reflexivity|]. exfalso. rewrite Hr in E. cbn in E. injection E as <- E.
        specialize (Ha y (or_introl eq_refl)). rewrite (Hp y) in Ha by now left. discriminate. }
      subst a. cbn in E.
      assert (Hf : firstn (length (y :: p)) (x :: r') = y :: p).
      { rewrite <- E, Hr. apply prefix_firstn. now exists r. }
      rewrite Hf in *. repeat split; auto. intros _ [L1 L2].
      apply Nat.leb_le in L1. apply Nat.leb_le in L2. rewrite L1, L2 in H2. exact H2.
Qed.
Example C23_example :
  p_take_while0 is_ascii_digit (bs "x12ab") 1 = Success (bs "12") 2 /\
  skipn 1 (bs "x12ab") = bs "12" ++ bs "ab" /\ (forall x, In x (bs "ab") -> is_ascii_digit x = false).
Proof. repeat split. intros x [<-|[<-|[]]]; reflexivity. Qed.

Print Assumptions C23_longest_prefix_refuted.
Print Assumptions C23_not_a_prefix_refuted.
Print Assumptions C23_take_while_exact.
Print Assumptions C23_longest_prefix_partial.

(** ** C24 *)
Theorem C24_take_till_hit : forall I (f : I -> bool) inp off a x r, off <= length inp ->
  skipn off inp = a ++ x :: r -> (forall y, In y a -> f y = false) -> f x = true ->
  p_take_till0 f inp off = Success (a ++ [x]) (length (a ++ [x])) /\
  p_take_till1 f inp off = Success (a ++ [x]) (length (a ++ [x])).
Proof.
  intros I f inp off a x r Ho Hr Ha Hx. unfold p_take_till0, p_take_till1. rewrite ps_input_ok by exact Ho.
  rewrite Hr, tt_loop_hit by assumption. cbn [Nat.add].
  assert (L : length (skipn off inp) = length (a ++ x :: r)) by now rewrite Hr.
  rewrite skipn_length, app_length in L. cbn [List.length] in L.
  rewrite slice_with_len_ok by lia. rewrite Hr.
  assert (E : firstn (length a + 1) (a ++ x :: r) = a ++ [x]).
  { change (a ++ x :: r) with (a ++ [x] ++ r). rewrite app_assoc.
    replace (length a + 1) with (length (a ++ [x])) by (rewrite app_length; reflexivity).
    apply prefix_firstn. now exists r. }
  rewrite E, app_length. auto.
Qed.
Theorem C24_take_till_miss : forall I (f : I -> bool) inp off, off <= length inp ->
  (forall y, In y (skipn off inp) -> f y = false) ->
  p_take_till0 f inp off = Success (skipn off inp) (length inp - off) /\ fails_uncommitted (p_take_till1 f) inp off.
Proof.
  intros I f inp off Ho H. unfold p_take_till0, p_take_till1, fails_uncommitted, failed_with_uncommitted.
  rewrite ps_input_ok by exact Ho. rewrite tt_loop_miss by exact H. rewrite skipn_length. eauto.
Qed.
(** The two cases above cover every input. *)
Theorem C24_cases : forall I (f : I -> bool) l,
  (forall y, In y l -> f y = false) \/ exists a x r, l = a ++ x :: r /\ (forall y, In y a -> f y = false) /\ f x = true.
Proof. exact first_split. Qed.
Example C24_example :
  p_take_till0 is_ascii_digit (bs "xab1c") 1 = Success (bs "ab1") 3 /\
  p_take_till0 is_ascii_digit (bs "xab") 1 = Success (bs "ab") 2 /\
  fails_uncommitted (p_take_till1 is_ascii_digit) (bs "xab") 1.
Proof. split; [reflexivity|]. split; [reflexivity|]. eexists; vm_compute; reflexivity. Qed.

Print Assumptions C24_take_till_hit.
Print Assumptions C24_take_till_miss.
Print Assumptions C24_cases.

(** ** C25 *)
Theorem C25_collect : forall I A (p : parser I A) inp off s n, bounded p -> off <= length inp ->
  (p_collect p inp off = Success s n <->
   exists v, p inp off = Success v n /\ inp = firstn off inp ++ s ++ skipn (off + n) inp /\ length s = n) /\
  (forall e c, p_collect p inp off = Failure e c <-> p inp off = Failure e c).
Proof.
  intros I A p inp off s n Hp Ho. unfold p_collect.
  destruct (p inp off) as [v l|e' c'| |] eqn:E.
  2, 3, 4: split; [split; [discriminate|intros (v & H & _); discriminate]|tauto || (intros; split; congruence)].
  pose proof (Hp _ _ _ _ Ho E) as B. rewrite slice_with_len_ok by exact B.
  split; [|intros; split; discriminate]. split.
  - intros H; inv H. exists v. split; [reflexivity|]. split.
    + rewrite <- skipn_skipn'. rewrite firstn_skipn. now rewrite firstn_skipn.
    + apply firstn_length_le. rewrite skipn_length. lia.
  - intros (v' & H & H1 & H2). inv H. f_equal.
    assert (Hs : skipn off inp = s ++ skipn (off + length s) inp).
    { rewrite H1 at 1. rewrite skipn_app. rewrite skipn_all2 by (rewrite firstn_length; lia).
      rewrite firstn_length_le by exact Ho. rewrite Nat.sub_diag. reflexivity. }
    rewrite Hs. apply prefix_firstn. eexists; reflexivity.
Qed.
Theorem C25_collect_sequence : forall I A B (p : parser I A) (q : parser I B) inp off s n,
  bounded p -> bounded q -> off <= length inp ->
  p_collect (p_and p q) inp off = Success s n <->
  p_map (p_and (p_collect p) (p_collect q)) (fun ab => fst ab ++ snd ab) inp off = Success s n.
Proof.
  intros I A B p q inp off s n Hp Hq Ho. unfold p_map, p_and, p_collect.
  destruct (p inp off) as [v l|e' c'| |] eqn:E; try (split; discriminate).
  pose proof (Hp _ _ _ _ Ho E) as B1. rewrite (slice_with_len_ok inp off l) by exact B1.
  destruct (q inp (off + l)) as [w m|e' c'| |] eqn:E2; try (split; discriminate).
  pose proof (Hq _ _ _ _ B1 E2) as B2. rewrite !slice_with_len_ok by lia. cbn [fst snd].
  replace (firstn (l + m) (skipn off inp))
    with (firstn l (skipn off inp) ++ firstn m (skipn (off + l) inp)); [reflexivity|].
  rewrite <- skipn_skipn'. apply firstn_skipn_app.
Qed.
Example C25_example :
  p_collect (p_and digit comma) (bs "x1,") 1 = Success (bs "1,") 2 /\ bounded (p_and digit comma).
Proof.
  split; [reflexivity|].
  apply (built_bounded (leaf := no_leaf) (ofs := true) (pan := true)); [intros A p []|unfold digit, comma; build].
Qed.
Print Assumptions C25_collect.
Print Assumptions C25_collect_sequence.

(** ** C26 *)
Theorem C26_offsets : forall I A (p : parser I A) inp off k n,
  (p_next_offset p inp off = Success k n <-> exists v, p inp off = Success v n /\ k = off + n) /\
  (p_last_offset p inp off = Success k n <-> exists v, p inp off = Success v n /\ k = off + n - 1) /\
  (forall e c, p_next_offset p inp off = Failure e c <-> p inp off = Failure e c) /\
  (forall e c, p_last_offset p inp off = Failure e c <-> p inp off = Failure e c).
Proof.
  intros I A p inp off k n. unfold p_next_offset, p_last_offset.
  assert (L : forall x, last_offset_or0 x = x - 1).
  { intros x. unfold last_offset_or0. destruct (Nat.ltb_spec 0 x); lia. }
  destruct (p inp off) as [v l|e' c'| |]; (split; [|split; [|split]]);
    try (intros e c); split; intros H; try discriminate;
    try (destruct H as (v' & H & _); discriminate); try assumption; try congruence.
  - inv H. eauto.
  - destruct H as (v' & H & ->). now inv H.
  - inv H. rewrite L. eauto.
  - destruct H as (v' & H & ->). inv H. now rewrite L.
Qed.
Example C26_example :
  p_next_offset digit (bs "ab1") 2 = Success 3 1 /\ p_last_offset digit (bs "ab1") 2 = Success 2 1.
Proof. split; reflexivity. Qed.
Print Assumptions C26_offsets.

(** ** C27 *)
Definition is_conversion_error {I} (e : perror I) : Prop :=
  match e with Conversion _ _ _ _ => True | _ => False end.
Theorem C27_map_res : forall I A B E (p : parser I A) (f : A -> B + E) inp off, off <= length inp ->
  (forall b n, p_map_res p f inp off = Success b n <-> exists a, p inp off = Success a n /\ f a = inl b) /\
  (forall a n err, p inp off = Success a n -> f a = inr err ->
     exists e, p_map_res p f inp off = Failure e Uncommitted /\ is_conversion_error e) /\
  (forall e c, p inp off = Failure e c -> p_map_res p f inp off = Failure e c).
Proof.
  intros I A B E p f inp off Ho. unfold p_map_res. rewrite ps_input_ok by exact Ho. split; [|split].
  - intros b n. destruct (p inp off) as [a l|e c| |]; split; intros H; try discriminate;
      try (destruct H as (a' & H & _); discriminate).
    + destruct (f a) eqn:Ef; inv H. eauto.
    + destruct H as (a' & H & Ef). inv H. now rewrite Ef.
  - intros a n err H Ef. rewrite H, Ef. eexists. split; [reflexivity|exact Logic.I].
  - intros e c H. now rewrite H.
Qed.
Theorem C27_map_opt : forall I A B (p : parser I A) (f : A -> option B) inp off, off <= length inp ->
  (forall b n, p_map_opt p f inp off = Success b n <-> exists a, p inp off = Success a n /\ f a = Some b) /\
  (forall a n, p inp off = Success a n -> f a = None ->
     exists e, p_map_opt p f inp off = Failure e Uncommitted /\ is_conversion_error e) /\
  (forall e c, p inp off = Failure e c -> p_map_opt p f inp off = Failure e c).
Proof.
  intros I A B p f inp off Ho. unfold p_map_opt. rewrite ps_input_ok by exact Ho. split; [|split].
  - intros b n. destruct (p inp off) as [a l|e c| |]; split; intros H; try discriminate;
      try (destruct H as (a' & H & _); discriminate).
    + destruct (f a) eqn:Ef; inv H. eauto.
    + destruct H as (a' & H & Ef). inv H. now rewrite Ef.
  - intros a n H Ef. rewrite H, Ef. eexists. split; [reflexivity|exact Logic.I].
  - intros e c H. now rewrite H.
Qed.
Example C27_example :
  let f := fun l : list N => match l with [x] => Some x | _ => None end in
  p_map_opt (p_many1 digit) f (bs "7a") 0 = Success (chr "7") 1 /\
  fails_uncommitted (p_map_opt (p_many1 digit) f) (bs "77a") 0.
Proof. split; [reflexivity|]. eexists. vm_compute. reflexivity. Qed.
Print Assumptions C27_map_res.
Print Assumptions C27_map_opt.

(** ** C28 *)
Theorem C28_decorators_keep_result : forall I A B (p : parser I A) nm (g : outcome I A -> B) inp off,
  erase (p_name p nm inp off) = erase (p inp off) /\
  erase (p_expect p nm inp off) = erase (p inp off) /\
  p_log_map p g inp off = p inp off.
Proof.
  intros. unfold p_name, p_expect, p_log_map. destruct (p inp off) as [v n|e c| |]; repeat split.
  destruct (is_custom e); reflexivity.
Qed.
(** The errors: name wraps everything but a custom error, so a second name is ignored; expect always wraps. *)
Theorem C28_name_errors : forall I A (p : parser I A) a b inp off,
  p_name (p_name p a) b inp off = p_name p a inp off /\
  (forall e c, p inp off = Failure e c -> is_custom e = false ->
     p_name p a inp off = Failure (Custom (off - 1) (Some e) a) c) /\
  (forall e c, p inp off = Failure e c -> is_custom e = true -> p_name p a inp off = Failure e c) /\
  (forall e c, p inp off = Failure e c -> p_expect p a inp off = Failure (Expect (off - 1) e a) c).
Proof.
  intros I A p a b inp off.
  assert (L : last_offset_or0 off = off - 1).
  { unfold last_offset_or0. destruct (Nat.ltb_spec 0 off); lia. }
  unfold p_name, p_expect. rewrite L. repeat split; intros.
  - destruct (p inp off) as [v n|e c| |]; try reflexivity. destruct (is_custom e) eqn:E; [now rewrite E|reflexivity].
  - now rewrite H, H0.
  - now rewrite H, H0.
  - now rewrite H.
Qed.
Example C28_example :
  p_name (p_name digit "digit") "number" (bs "ax") 1 =
  Failure (Custom 0 (Some (Mismatch (bs "x") 2 1 "offset")) "digit") Uncommitted.
Proof. reflexivity. Qed.
Print Assumptions C28_decorators_keep_result.
Print Assumptions C28_name_errors.

(** ** C29 *)
(** Full statement: forall closure parsers p and inputs, parse p inp = Failure e c -> error_input e <> None (returns
    normally) and the slice is the offending one.  False already for one element parser. *)
Theorem C29_input_panics_refuted :
  exists inp e c, parse (p_elm (chr "a")) inp = Failure e c /\ error_input e = None.
Proof. eexists (bs "b"), _, _. vm_compute. split; reflexivity. Qed.
Theorem C29_offending_slice_refuted :
  exists inp e c s, parse (p_elm (chr "a")) inp = Failure e c /\ error_input e = Some (Some s) /\
    s <> firstn 1 inp.
Proof. eexists (bs "bc"), _, _, _. vm_compute. repeat split. discriminate. Qed.

(** Exact domain for the element parsers and end(): the slice is taken at off+1 of the *remaining* input. *)
Theorem C29_element_partial : forall I (f : I -> bool) inp off e c, off <= length inp ->
  p_elm_pred f inp off = Failure e c \/ p_end inp off = Failure e c ->
  (error_input e = None <-> length inp - off < off + 2) /\
  (forall s, error_input e = Some s -> exists x, s = Some [x] /\ nth_error inp (off + off + 1) = Some x).
Proof.
  intros I f inp off e c Ho H.
  assert (E : e = Mismatch (skipn off inp) (off + 1) 1 "offset" \/
              e = Mismatch (skipn off inp) (off + 1) 1 "expect end of input").
  { destruct H as [H|H].
    - left. unfold p_elm_pred, p_map, p_elm_pred_ref in H. rewrite ps_input_ok in H by exact Ho.
      destruct (skipn off inp) as [|x r] eqn:Es; cbn in H; [now inv H|]. destruct (f x); now inv H.
    - right. unfold p_end in H. rewrite ps_input_ok in H by exact Ho.
      destruct (skipn off inp) as [|x r] eqn:Es; cbn in H; now inv H. }
  assert (G : error_input e = match slice (skipn off inp) (off + 1) (off + 1 + 1) with Some s => Some (Some s) | None => None end).
  { destruct E as [-> | ->]; reflexivity. }
  rewrite G. unfold slice. rewrite skipn_length.
  destruct (Nat.leb_spec (off + 1) (off + 1 + 1)); [|lia].
  destruct (Nat.leb_spec (off + 1 + 1) (length inp - off)); cbn [andb].
  - split; [split; [discriminate|lia]|]. intros s Hs. inv Hs.
    replace (off + 1 + 1 - (off + 1)) with 1 by lia. rewrite skipn_skipn'.
    replace (off + (off + 1)) with (off + off + 1) by lia.
    destruct (skipn (off + off + 1) inp) as [|x r] eqn:Es.
    + apply skipn_nil_iff in Es. lia.
    + exists x. apply skipn_cons_nth in Es. destruct Es as (_ & Es & _). auto.
  - split; [split; [lia|reflexivity]|discriminate].
Qed.
(** The two decorators hand on the slice of the error they wrap, at every nesting depth. *)
Inductive wraps {I} : perror I -> perror I -> Prop :=
| wraps_self : forall e, wraps e e
| wraps_expect : forall o e d m, wraps e d -> wraps (Expect o e m) d
| wraps_named : forall o e d m, wraps e d -> wraps (Custom o (Some e) m) d.
Theorem C29_wrapped : forall I A (p : parser I A) m inp off e c,
  p_expect p m inp off = Failure e c \/ p_name p m inp off = Failure e c ->
  exists d, p inp off = Failure d c /\ wraps e d /\ error_input e = error_input d.
Proof.
  assert (W : forall I (e d : perror I), wraps e d -> error_input e = error_input d).
  { intros I e d H. induction H; cbn; auto. }
  intros I A p m inp off e c H. unfold p_expect, p_name in H.
  destruct (p inp off) as [v n|d k| |]; try (destruct H; discriminate). exists d.
  assert (K : k = c /\ wraps e d).
  { destruct H as [H|H]; [inv H; split; [reflexivity|repeat constructor]|].
    destruct (is_custom d); inv H; split; try reflexivity; repeat constructor. }
  destruct K as [-> K]. split; [reflexivity|]. split; [exact K|]. now apply W.
Qed.
Example C29_wrapped_example : exists e c,
  p_expect (p_name (p_elm_pred is_ascii_digit) "digit") "number" (bs "xabcd") 1 = Failure e c /\ error_input e = Some (Some (bs "c")).
Proof. eexists _, _. vm_compute. split; reflexivity. Qed.
Example C29_example :
  exists e c, p_elm_pred is_ascii_digit (bs "xabcd") 1 = Failure e c /\ error_input e = Some (Some (bs "c")).
Proof. eexists _, _. vm_compute. split; reflexivity. Qed.
Print Assumptions C29_input_panics_refuted.
Print Assumptions C29_offending_slice_refuted.
Print Assumptions C29_element_partial.
Print Assumptions C29_wrapped.

(** ** C30 *)
(** Full statement: every history of runs gets the answers of p.  False: the key is the address of the state and the
    *last* offset; positions 0 and 1 share it, and so do two inputs parsed by states at one address. *)
Theorem C30_transparent_refuted :
  exists (p : parser N N) (c1 c2 c3 : ccall N),
    (cc_input c1 = cc_input c2 /\ cc_off c1 <> cc_off c2 /\
     cache_runs p [] [c1; c2] <> [p (cc_input c1) (cc_off c1); p (cc_input c2) (cc_off c2)]) /\
    (cc_input c1 <> cc_input c3 /\ cc_off c1 = cc_off c3 /\
     cache_runs p [] [c1; c3] <> [p (cc_input c1) (cc_off c1); p (cc_input c3) (cc_off c3)]).
Proof.
  exists p_elm_any, (mk_call 1000 (bs "ab") 0), (mk_call 1000 (bs "ab") 1), (mk_call 1000 (bs "xy") 0).
  repeat split; vm_compute; discriminate.
Qed.

(** The answers are those of p whenever calls with the same key (address, last offset) have the same input and
    position.  Missing from the full statement: histories where an address is reused. *)
Theorem C30_transparent_partial : forall I A (p : parser I A) (cs : list (ccall I)),
  (forall c c', In c cs -> In c' cs -> cc_addr c = cc_addr c' -> cc_off c - 1 = cc_off c' - 1 ->
     cc_input c = cc_input c' /\ cc_off c = cc_off c') ->
  cache_runs p [] cs = map (fun c => p (cc_input c) (cc_off c)) cs.
Proof.
  intros I A p cs Hk.
  assert (L : forall x, last_offset_or0 x = x - 1).
  { intros x. unfold last_offset_or0. destruct (Nat.ltb_spec 0 x); lia. }
  assert (G : forall done todo m, done ++ todo = cs ->
    (forall k o, cfind m k = Some o -> exists c, In c done /\ k = key_of c /\ o = p (cc_input c) (cc_off c)) ->
    cache_runs p m todo = map (fun c => p (cc_input c) (cc_off c)) todo).
  { intros done todo. revert done. induction todo as [|c todo IH]; intros done m Hc Hm; [reflexivity|].
    cbn [cache_runs map]. unfold cache_step.
    assert (Hc' : (done ++ [c]) ++ todo = cs) by (rewrite <- app_assoc; exact Hc).
    assert (Inc : In c cs) by (subst cs; apply in_or_app; right; now left).
    destruct (cfind m (key_of c)) as [o|] eqn:E.
    - destruct (Hm _ _ E) as (c' & Hin & Hkey & ->). unfold key_of in Hkey. rewrite !L in Hkey. inv Hkey.
      assert (Inc' : In c' (done ++ c :: todo)) by (apply in_or_app; now left).
      destruct (Hk c c' Inc Inc') as [-> ->]; auto. f_equal.
      apply (IH (done ++ [c])); auto. intros k o Hf. destruct (Hm _ _ Hf) as (c0 & J0 & J1). exists c0.
      split; [apply in_or_app; now left|exact J1].
    - assert (Hm1 : forall k o, cfind m k = Some o ->
        exists c0, In c0 (done ++ [c]) /\ k = key_of c0 /\ o = p (cc_input c0) (cc_off c0)).
      { intros k o Hf. destruct (Hm _ _ Hf) as (c0 & H0 & H1). exists c0. split; [apply in_or_app; now left|exact H1]. }
      destruct (p (cc_input c) (cc_off c)) as [v n|e cm| |] eqn:Ep; f_equal; apply (IH (done ++ [c])); auto.
      + intros k o. cbn [cfind]. unfold ckey_eqb.
        destruct ((fst k =? fst (key_of c)) && (snd k =? snd (key_of c))) eqn:Ek; [|apply Hm1].
        intros H; inv H. apply andb_true_iff in Ek. destruct Ek as [E1 E2].
        apply Nat.eqb_eq in E1. apply Nat.eqb_eq in E2. exists c. split; [apply in_or_app; right; now left|].
        split; [rewrite (surjective_pairing k), E1, E2; reflexivity|now symmetry].
      + intros k o. cbn [cfind]. unfold ckey_eqb.
        destruct ((fst k =? fst (key_of c)) && (snd k =? snd (key_of c))) eqn:Ek; [|apply Hm1].
        intros H; inv H. apply andb_true_iff in Ek. destruct Ek as [E1 E2].
        apply Nat.eqb_eq in E1. apply Nat.eqb_eq in E2. exists c. split; [apply in_or_app; right; now left|].
        split; [rewrite (surjective_pairing k), E1, E2; reflexivity|now symmetry]. }
  apply (G [] cs []); [reflexivity|]. intros k o H. discriminate.
Qed.

(** A grammar that recurses through one cached parser object panics on the first nested call (the map is borrowed). *)
Theorem C30_recursive_cache_panics_refuted :
  exists (method : parser N N -> parser N N) inp,
    (* without cache the grammar accepts the input *)
    method (method (fun _ _ => Panic)) inp 0 = Success (chr "1") 3 /\
    snd (cache_step_rec method [] (mk_call 1000 inp 0)) = Panic.
Proof.
  exists (fun self => p_or (p_surround (p_elm (chr "(")) self (p_elm (chr ")"))) p_elm_digit), (bs "(1)").
  split; vm_compute; reflexivity.
Qed.

Example C30_example :
  cache_runs digit [] [mk_call 1 (bs "12") 1; mk_call 2 (bs "12") 0; mk_call 1 (bs "12") 1] =
  [Success (chr "2") 1; Success (chr "1") 1; Success (chr "2") 1].
Proof. reflexivity. Qed.
Print Assumptions C30_transparent_refuted.
Print Assumptions C30_transparent_partial.
Print Assumptions C30_recursive_cache_panics_refuted.

(** ** C31 *)
(** Value, length and commit status (the content of errors is not compared: it records absolute offsets). *)
Theorem C31_position_independent : forall I (leaf : forall A, parser I A -> Prop) pan,
  (forall A (p : parser I A), leaf A p -> shiftable p) ->
  forall A (p : parser I A), built leaf false pan p ->
  forall k inp off, k <= length inp -> erase (p inp (k + off)) = erase (p (skipn k inp) off).
Proof. intros I leaf pan Hl A p Hb k inp off Hk. exact (built_shiftable Hl Hb inp off Hk). Qed.
Example C31_example :
  built no_leaf false false ex_grammar /\
  ex_grammar (bs "zz1a,22xy") 2 = Success [bs "a"; bs "2xy"] 7 /\
  ex_grammar (bs "1a,22xy") 0 = Success [bs "a"; bs "2xy"] 7.
Proof. split; [apply ex_grammar_built|]. split; vm_compute; reflexivity. Qed.
(** Parsers that ask for offsets are not position independent. *)
Theorem C31_offsets_excluded : exists (p : parser N nat) inp,
  built no_leaf true false p /\ erase (p inp 1) <> erase (p (skipn 1 inp) 0).
Proof. exists (p_next_offset digit), (bs "12"). split; [unfold digit; build|vm_compute; discriminate]. Qed.
Print Assumptions C31_position_independent.
Print Assumptions C31_offsets_excluded.

(** ** C32 *)
Theorem C32_skip_surround : forall I A B C (l : parser I A) (p : parser I B) (r : parser I C) inp off n,
  (forall v, p_skip_left l p inp off = Success v n <->
     exists a n1 n2, l inp off = Success a n1 /\ p inp (off + n1) = Success v n2 /\ n = n1 + n2) /\
  (forall v, p_skip_right l p inp off = Success v n <->
     exists b n1 n2, l inp off = Success v n1 /\ p inp (off + n1) = Success b n2 /\ n = n1 + n2) /\
  (forall v, p_surround l p r inp off = Success v n <->
     exists a c n1 n2 n3, l inp off = Success a n1 /\ p inp (off + n1) = Success v n2 /\
       r inp (off + n1 + n2) = Success c n3 /\ n = n1 + n2 + n3).
Proof.
  intros I A B C l p r inp off n. split; [|split]; intros v.
  - unfold p_skip_left. destruct (l inp off) as [a n1|e c| |] eqn:E1;
      try (split; [discriminate|intros (? & ? & ? & H & _); discriminate]).
    destruct (p inp (off + n1)) as [b n2|e c| |] eqn:E2; split; intros H; try discriminate;
      try (destruct H as (? & ? & ? & H1 & H2 & ->); inv H1; congruence).
    inv H. eauto 8.
  - unfold p_skip_right. destruct (l inp off) as [a n1|e c| |] eqn:E1;
      try (split; [discriminate|intros (? & ? & ? & H & _); discriminate]).
    destruct (p inp (off + n1)) as [b n2|e c| |] eqn:E2; split; intros H; try discriminate;
      try (destruct H as (? & ? & ? & H1 & H2 & ->); inv H1; congruence).
    inv H. eauto 8.
  - unfold p_surround, p_skip_left, p_skip_right. destruct (l inp off) as [a n1|e c| |] eqn:E1;
      try (split; [discriminate|intros (? & ? & ? & ? & ? & H & _); discriminate]).
    destruct (p inp (off + n1)) as [b n2|e c| |] eqn:E2;
      try (split; [discriminate|intros (? & ? & ? & ? & ? & H & H2 & _); inv H; congruence]).
    destruct (r inp (off + n1 + n2)) as [d n3|e c| |] eqn:E3; split; intros H; try discriminate;
      try (destruct H as (? & ? & ? & ? & ? & H1 & H2 & H3 & ->); inv H1; rewrite E2 in H2; inv H2; congruence).
    + inv H. exists a, d, n1, n2, n3. repeat split; auto. lia.
    + destruct H as (? & ? & ? & ? & ? & H1 & H2 & H3 & ->). inv H1. rewrite E2 in H2. inv H2.
      rewrite E3 in H3. inv H3. f_equal. lia.
Qed.
(** discard keeps everything but the value. *)
Theorem C32_discard : forall I A (p : parser I A) inp off,
  (forall n, p_discard p inp off = Success tt n <-> exists v, p inp off = Success v n) /\
  (forall e c, p_discard p inp off = Failure e c <-> p inp off = Failure e c).
Proof.
  intros I A p inp off. unfold p_discard, p_map. destruct (p inp off) as [v n|e c| |]; split; intros; split; intros H;
    try discriminate; try (destruct H; discriminate); try exact H; try (inv H; eauto; fail); try (destruct H as [w H]; now inv H).
Qed.
Example C32_discard_example : p_discard (p_seqN (bs "ab")) (bs "xabc") 1 = Success tt 2.
Proof. reflexivity. Qed.
Example C32_example :
  p_surround (p_elm (chr "(")) digit (p_elm (chr ")")) (bs "x(1)y") 1 = Success (chr "1") 3 /\
  fails_uncommitted (p_surround (p_elm (chr "(")) digit (p_elm (chr ")"))) (bs "(1]") 0.
Proof. split; [reflexivity|]. eexists. vm_compute. reflexivity. Qed.
Print Assumptions C32_skip_surround.
Print Assumptions C32_discard.

(** ** C33 *)
Theorem C33_opt : forall I A (p : parser I A) inp off,
  (forall e c, p_opt p inp off <> Failure e c) /\
  (forall v n, p_opt p inp off = Success (Some v) n <-> p inp off = Success v n) /\
  (forall n, p_opt p inp off = Success None n <-> n = 0 /\ Fails p inp off).
Proof.
  intros I A p inp off. unfold p_opt, p_or, p_map, p_attempt, p_successful.
  destruct (p inp off) as [v n|e [|]| |] eqn:E; cbn; repeat split; intros; try discriminate; try congruence;
    try (match goal with H : Success _ _ = Success _ _ |- _ => inv H end);
    try (match goal with H : _ /\ Fails _ _ _ |- _ => destruct H as (-> & e' & c' & H); congruence end);
    auto; eexists; eauto.
Qed.
Example C33_example :
  p_opt (p_seqN (bs "ab")) (bs "ac") 0 = Success None 0 /\ Fails (p_seqN (bs "ab")) (bs "ac") 0 /\
  p_opt (p_seqN (bs "ab")) (bs "ab") 0 = Success (Some (bs "ab")) 2.
Proof. split; [reflexivity|]. split; [eexists _, _; vm_compute; reflexivity|reflexivity]. Qed.
Print Assumptions C33_opt.

(** ** C34 *)
Theorem C34_literal_then : forall I A (eqb : I -> I -> bool) s (q : parser I A) inp off,
  (forall a b, eqb a b = true <-> a = b) -> off <= length inp -> prefix s (skipn off inp) ->
  p_skip_left (p_seq eqb s) q inp off = advance_success (length s) (q inp (off + length s)).
Proof.
  intros I A eqb s q inp off He Ho Hp.
  assert (E : p_seq eqb s inp off = Success s (length s)).
  { apply C18_literal_success; auto. }
  unfold p_skip_left. rewrite E. destruct (q inp (off + length s)); cbn; try reflexivity. f_equal. lia.
Qed.
Lemma prefix_app : forall I (s t l : list I), prefix (s ++ t) l <-> prefix s l /\ prefix t (skipn (length s) l).
Proof.
  intros I s t l. split.
  - intros [r ->]. rewrite <- app_assoc. split; [eexists; reflexivity|].
    rewrite skipn_app, skipn_all, Nat.sub_diag. exists r. reflexivity.
  - intros [[r ->] [r' H]]. rewrite skipn_app, skipn_all, Nat.sub_diag in H. cbn in H. subst r.
    exists r'. now rewrite app_assoc.
Qed.
Theorem C34_literal_join : forall I (eqb : I -> I -> bool) s t inp off n,
  (forall a b, eqb a b = true <-> a = b) -> off <= length inp ->
  p_and (p_seq eqb s) (p_seq eqb t) inp off = Success (s, t) n <-> p_seq eqb (s ++ t) inp off = Success (s ++ t) n.
Proof.
  intros I eqb s t inp off n He Ho.
  rewrite (proj1 (C18_literal_success eqb (s ++ t) inp (s ++ t) n He Ho)). rewrite prefix_app.
  unfold p_and. split.
  - intros H. destruct (p_seq eqb s inp off) as [v1 n1|e c| |] eqn:E1; try discriminate.
    apply (proj1 (C18_literal_success eqb s inp v1 n1 He Ho)) in E1. destruct E1 as (-> & -> & P1).
    assert (Ho2 : off + length s <= length inp).
    { destruct P1 as [r P1]. assert (L : length (skipn off inp) = length (s ++ r)) by now rewrite P1.
      rewrite skipn_length, app_length in L. lia. }
    destruct (p_seq eqb t inp (off + length s)) as [v2 n2|e c| |] eqn:E2; try discriminate.
    apply (proj1 (C18_literal_success eqb t inp v2 n2 He Ho2)) in E2. destruct E2 as (-> & -> & P2).
    inv H. rewrite app_length. repeat split; auto. now rewrite skipn_skipn'.
  - intros (_ & -> & P1 & P2).
    assert (Ho2 : off + length s <= length inp).
    { destruct P1 as [r P1]. assert (L : length (skipn off inp) = length (s ++ r)) by now rewrite P1.
      rewrite skipn_length, app_length in L. lia. }
    rewrite (proj2 (proj1 (C18_literal_success eqb s inp s (length s) He Ho))) by auto.
    rewrite skipn_skipn' in P2.
    rewrite (proj2 (proj1 (C18_literal_success eqb t inp t (length t) He Ho2))) by auto.
    now rewrite app_length.
Qed.
Example C34_example :
  p_and (p_seqN (bs "ab")) (p_seqN (bs "cd")) (bs "xabcd") 1 = Success (bs "ab", bs "cd") 4 /\
  p_seqN (bs "abcd") (bs "xabcd") 1 = Success (bs "abcd") 4.
Proof. split; reflexivity. Qed.
Print Assumptions C34_literal_then.
Print Assumptions C34_literal_join.
