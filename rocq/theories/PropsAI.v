(** C122: rearranging a grammar. *)
From Verif Require Import Base Core Comb Closure RepFacts PropsB PropsC.
Set Implicit Arguments.
Local Open Scope string_scope.
Local Open Scope nat_scope.
Local Open Scope list_scope.

(** The same outcome - value, length, error, commit status, panic - on every input at every position. *)
Definition same {I A} (p q : parser I A) : Prop := forall inp off, p inp off = q inp off.
(** What [p] accepts, [q] accepts with the same value and length. *)
Definition accepts_of {I A} (p q : parser I A) : Prop := forall inp off v n, p inp off = Success v n -> q inp off = Success v n.

Ltac run p inp off := destruct (p inp off) eqn:?; try reflexivity.
(** ** Sequences can be grouped in any way *)
Theorem C122_grouping : forall I A B C (p : parser I A) (q : parser I B) (r : parser I C),
  same (p_map (p_and (p_and p q) r) (fun t => (fst (fst t), (snd (fst t), snd t)))) (p_and p (p_and q r)) /\
  same (p_skip_left (p_skip_left p q) r) (p_skip_left p (p_skip_left q r)) /\
  same (p_skip_right (p_skip_right p q) r) (p_skip_right p (p_skip_left q r)) /\
  same (p_skip_right (p_skip_right p q) r) (p_skip_right p (p_skip_right q r)) /\
  same (p_skip_right (p_skip_left p q) r) (p_skip_left p (p_skip_right q r)) /\
  same (p_skip_left (p_skip_right p q) r) (p_skip_left p (p_skip_left q r)).
Proof.
  intros I A B C p q r. repeat split; intros inp off; unfold p_map, p_and, p_skip_left, p_skip_right; destruct (p inp off) as [a n1|e1 c1| |]; try reflexivity;
    destruct (q inp (off + n1)) as [b n2|e2 c2| |]; try reflexivity; rewrite Nat.add_assoc; destruct (r inp (off + n1 + n2)) as [c n3|e3 c3| |]; try reflexivity;
    cbn; f_equal; lia.
Qed.
(** ** A common beginning can be taken out of a choice, a common end can not *)
Theorem C122_common_beginning : forall I A B (p : parser I A) (q r : parser I B),
  same (p_and p (p_or q r)) (p_or (p_and p q) (p_and p r)) /\
  same (p_skip_left p (p_or q r)) (p_or (p_skip_left p q) (p_skip_left p r)) /\
  same (p_skip_right p (p_or q r)) (p_or (p_skip_right p q) (p_skip_right p r)).
Proof.
  intros I A B p q r. repeat split; intros inp off; unfold p_or, p_and, p_skip_left, p_skip_right;
    (destruct (p inp off) as [a n1|e1 [|]| |]; try reflexivity); destruct (q inp (off + n1)) as [b n2|e2 [|]| |]; reflexivity.
Qed.
(** With flat_map (and the bind of a value) it is not so: the first alternative commits. *)
Theorem C122_common_beginning_refuted : exists (p : parser N N) (q r : parser N N) inp v n,
  p_flat_map p (fun _ => p_or q r) inp 0 = Success v n /\ exists e, p_or (p_flat_map p (fun _ => q)) (p_flat_map p (fun _ => r)) inp 0 = Failure e Committed.
Proof.
  exists (p_elm (chr "a")), (p_elm (chr "b")), (p_elm (chr "c")), (bs "ac"), (chr "c"), 2. split; [vm_compute; reflexivity|]. eexists. vm_compute. reflexivity.
Qed.
Theorem C122_common_end : forall I A B (p q : parser I A) (r : parser I B),
  accepts_of (p_and (p_or p q) r) (p_or (p_and p r) (p_and q r)) /\
  accepts_of (p_skip_left (p_or p q) r) (p_or (p_skip_left p r) (p_skip_left q r)) /\
  accepts_of (p_skip_right (p_or p q) r) (p_or (p_skip_right p r) (p_skip_right q r)).
Proof.
  intros I A B p q r. repeat split; intros inp off v n; unfold p_or, p_and, p_skip_left, p_skip_right;
    (destruct (p inp off) as [a n1|e1 [|]| |]; try discriminate; cbn [negb]; auto); destruct (r inp (off + n1)) as [b n2|e2 [|]| |]; try discriminate; auto.
Qed.
Theorem C122_common_end_refuted : exists (p q : parser N (list N)) (r : parser N N) inp v n,
  p_or (p_and p r) (p_and q r) inp 0 = Success v n /\ exists e c, p_and (p_or p q) r inp 0 = Failure e c.
Proof.
  exists (p_seqN (bs "a")), (p_seqN (bs "ab")), (p_elm (chr "c")), (bs "abc"), (bs "ab", chr "c"), 3. split; [vm_compute; reflexivity|]. do 2 eexists. vm_compute. reflexivity.
Qed.
(** ** Words can be cut into parts *)
Theorem C122_words : forall I (eqb : I -> I -> bool) s t inp off n, (forall a b, eqb a b = true <-> a = b) -> off <= length inp ->
  (p_seq eqb (s ++ t) inp off = Success (s ++ t) n <-> p_and (p_seq eqb s) (p_seq eqb t) inp off = Success (s, t) n) /\
  (p_tag_by eqb (s ++ t) inp off = Success (s ++ t) n <-> p_and (p_tag_by eqb s) (p_tag_by eqb t) inp off = Success (s, t) n).
Proof.
  intros I eqb s t inp off n He Ho.
  assert (K : forall (q : list I -> parser I (list I)), (forall s inp off v n, off <= length inp -> q s inp off = Success v n <-> v = s /\ n = length s /\ prefix s (skipn off inp)) ->
    (q (s ++ t) inp off = Success (s ++ t) n <-> p_and (q s) (q t) inp off = Success (s, t) n)).
  { intros q H. rewrite H by exact Ho. rewrite app_length. unfold p_and. split.
    - intros (_ & -> & r & E). rewrite <- app_assoc in E. assert (L : off + length s <= length inp).
      { pose proof (f_equal (@length I) E) as L. rewrite skipn_length, !app_length in L. lia. }
      rewrite (proj2 (H s inp off s (length s) Ho)) by (repeat split; now exists (t ++ r)).
      assert (E2 : skipn (off + length s) inp = t ++ r).
      { rewrite <- skipn_skipn', E. now rewrite skipn_app, skipn_all, Nat.sub_diag. }
      now rewrite (proj2 (H t inp (off + length s) t (length t) L)) by (repeat split; now exists r).
    - destruct (q s inp off) as [a n1|e c| |] eqn:E1; try discriminate. apply H in E1; [|exact Ho]. destruct E1 as (-> & -> & r & E1).
      assert (L : off + length s <= length inp).
      { pose proof (f_equal (@length I) E1) as L. rewrite skipn_length, !app_length in L. lia. }
      destruct (q t inp (off + length s)) as [b n2|e c| |] eqn:E2; try discriminate. apply H in E2; [|exact L]. destruct E2 as (-> & -> & r2 & E2).
      intros E. inv E. repeat split. exists r2. rewrite <- skipn_skipn', E1, skipn_app, skipn_all, Nat.sub_diag in E2. cbn in E2. rewrite E1, E2. apply app_assoc. }
  split; [apply (K (p_seq eqb))|apply (K (p_tag_by eqb))]; intros; now apply (C18_literal_success eqb).
Qed.

(** ** Repetitions can be unrolled, and cut into counted parts *)
Theorem C122_unroll : forall I A (p : parser I A) inp off, bounded p -> off <= length inp ->
  (forall v vs n, p_many1 p inp off = Success (v :: vs) n <-> p_and p (p_many0 p) inp off = Success (v, vs) n) /\
  (forall vs n, p_many0 p inp off = Success vs n <-> p_or (p_many1 p) (p_successful []) inp off = Success vs n).
Proof.
  intros I A p inp off Hp Ho. split.
  - intros v vs n. rewrite C12_many1_maximal by assumption. unfold p_and. split.
    + intros (_ & H & F). inv H. match goal with E : p inp off = Success _ _ |- _ => rewrite E; pose proof (Hp _ _ _ _ Ho E) as B end.
      match goal with K : steps p inp (off + ?k) vs ?m |- _ => pose proof (proj2 (@C12_many0_maximal _ _ p _ _ vs m Hp B)) as M end. rewrite M; [reflexivity|].
      split; [assumption|]. now rewrite <- Nat.add_assoc.
    + destruct (p inp off) as [a n1|e c| |] eqn:E; try discriminate. pose proof (Hp _ _ _ _ Ho E) as B.
      destruct (p_many0 p inp (off + n1)) as [b n2|e c| |] eqn:E2; try discriminate. intros X. inv X. apply C12_many0_maximal in E2; [|assumption ..].
      destruct E2 as [H F]. split; [discriminate|]. split; [now constructor|]. now rewrite Nat.add_assoc.
  - intros vs n. rewrite C12_many0_maximal by assumption. unfold p_or, p_successful. destruct (@C12_many1_fails_iff _ _ p _ _ Hp Ho) as [F U].
    destruct (p_many1 p inp off) as [ws l|e c| |] eqn:E.
    + pose proof (proj1 (@C12_many1_maximal _ _ p _ _ ws l Hp Ho) E) as (_ & H & Fl). split.
      * intros [H2 F2]. destruct (steps_deterministic H2 F2 H Fl) as [-> ->]. reflexivity.
      * intros X. inv X. now split.
    + rewrite (U _ _ eq_refl). cbn [negb]. assert (Fp : Fails p inp off) by (apply F; now exists e, c). split.
      * intros [H2 F2]. inv H2; [reflexivity|]. destruct Fp as (e' & c' & X). congruence.
      * intros X. inv X. split; [constructor|]. now rewrite Nat.add_0_r.
    + split; [|discriminate]. intros [H2 F2]. destruct vs as [|v vs].
      * inv H2. rewrite Nat.add_0_r in F2. apply F in F2. destruct F2 as (e & c & X). congruence.
      * assert (X : p_many1 p inp off = Success (v :: vs) n) by (apply C12_many1_maximal; [assumption ..|split; [discriminate|now split]]). congruence.
    + split; [|discriminate]. intros [H2 F2]. destruct vs as [|v vs].
      * inv H2. rewrite Nat.add_0_r in F2. apply F in F2. destruct F2 as (e & c & X). congruence.
      * assert (X : p_many1 p inp off = Success (v :: vs) n) by (apply C12_many1_maximal; [assumption ..|split; [discriminate|now split]]). congruence.
Qed.
(** A repetition leaves nothing to a second one. *)
Theorem C122_twice : forall I A (p : parser I A) inp off vs ws n, bounded p -> off <= length inp ->
  p_and (p_many0 p) (p_many0 p) inp off = Success (vs, ws) n <-> ws = [] /\ p_many0 p inp off = Success vs n.
Proof.
  intros I A p inp off vs ws n Hp Ho. unfold p_and. split.
  - destruct (p_many0 p inp off) as [a n1|e c| |] eqn:E; try discriminate. apply C12_many0_maximal in E; [|assumption ..]. destruct E as [H F].
    pose proof (steps_bounded Hp H Ho) as B.
    destruct (p_many0 p inp (off + n1)) as [b n2|e c| |] eqn:E2; try discriminate. intros X. inv X. apply C12_many0_maximal in E2; [|assumption ..].
    destruct E2 as [H2 F2]. assert (F0 : Fails p inp (off + n1 + 0)) by now rewrite Nat.add_0_r.
    destruct (steps_deterministic H2 F2 (steps_nil p inp (off + n1)) F0) as [-> ->]. now rewrite Nat.add_0_r.
  - intros [-> E]. rewrite E. apply C12_many0_maximal in E; [|assumption ..]. destruct E as [H F]. pose proof (steps_bounded Hp H Ho) as B.
    rewrite (proj2 (@C12_many0_maximal _ _ p _ _ [] 0 Hp B)); [now rewrite Nat.add_0_r|]. split; [constructor|now rewrite Nat.add_0_r].
Qed.
Lemma count_exact : forall I A (p : parser I A) k inp off vs l, bounded p -> off <= length inp -> 1 <= k ->
  p_count p k inp off = Success vs l <-> steps p inp off vs l /\ length vs = k.
Proof.
  intros I A p k inp off vs l Hp Ho Hk. unfold p_count. rewrite many_none_success by (cbn; auto). cbn. split; [|intros [H E]; split; [exact H|]; lia].
  intros (H & H1 & H2 & _). split; [exact H|lia].
Qed.
Lemma steps_split : forall I A (p : parser I A) inp vs ws off l, steps p inp off (vs ++ ws) l -> exists l1 l2, l = l1 + l2 /\ steps p inp off vs l1 /\ steps p inp (off + l1) ws l2.
Proof.
  intros I A p inp vs. induction vs as [|v vs IH]; intros ws off l H.
  - exists 0, l. rewrite Nat.add_0_r. split; [reflexivity|]. split; [constructor|exact H].
  - cbn in H. inv H. destruct (IH _ _ _ H5) as (l1 & l2 & -> & H1 & H2). exists (n + l1), l2. split; [lia|]. split; [now constructor|]. now rewrite Nat.add_assoc.
Qed.
Theorem C122_counts : forall I A (p : parser I A) k m inp off vs ws l, bounded p -> off <= length inp -> 1 <= k -> 1 <= m -> length vs = k ->
  p_count p (k + m) inp off = Success (vs ++ ws) l <-> p_and (p_count p k) (p_count p m) inp off = Success (vs, ws) l.
Proof.
  intros I A p k m inp off vs ws l Hp Ho Hk Hm Hl. rewrite count_exact by (assumption || lia). unfold p_and. rewrite app_length. split.
  - intros [H E]. destruct (steps_split _ _ H) as (l1 & l2 & -> & H1 & H2). pose proof (steps_bounded Hp H1 Ho) as B.
    rewrite (proj2 (@count_exact _ _ p k _ _ vs l1 Hp Ho Hk)) by (now split). now rewrite (proj2 (@count_exact _ _ p m _ _ ws l2 Hp B Hm)) by (split; [assumption|lia]).
  - destruct (p_count p k inp off) as [a n1|e c| |] eqn:E; try discriminate. apply count_exact in E; [|assumption ..]. destruct E as [H1 E1].
    pose proof (steps_bounded Hp H1 Ho) as B. destruct (p_count p m inp (off + n1)) as [b n2|e c| |] eqn:E2; try discriminate.
    apply count_exact in E2; [|assumption ..]. destruct E2 as [H2 E2]. intros X. inv X. split; [|lia]. eapply steps_app; eassumption.
Qed.
(** ** Filters can be joined; tests of elements can be joined *)
Theorem C122_filters : forall I A (p : parser I A) f g, same (p_filter (p_filter p f) g) (p_filter p (fun a => f a && g a)).
Proof. intros I A p f g inp off. unfold p_filter. destruct (p inp off) as [a n|e c| |]; try reflexivity. now destruct (f a). Qed.
Theorem C122_classes : forall I (f g : I -> bool) inp off x n, off <= length inp ->
  p_or (p_elm_pred f) (p_elm_pred g) inp off = Success x n <-> p_elm_pred (fun y => f y || g y) inp off = Success x n.
Proof.
  intros I f g inp off x n Ho. unfold p_or, p_elm_pred, p_map, p_elm_pred_ref. rewrite ps_input_ok by exact Ho.
  destruct (skipn off inp) as [|y l]; [reflexivity|]. destruct (f y), (g y); reflexivity.
Qed.

(** Cases that accept and cases that fail, with commit status. *)
Example C122_case : let a := p_elm (chr "a") in let b := p_elm (chr "b") in let ab := p_seqN (bs "ab") in
  p_and a (p_and b p_elm_digit) (bs "ab1") 0 = Success (chr "a", (chr "b", chr "1")) 3 /\
  (exists e, p_and (p_seqN (bs "x")) (p_or ab (p_seqN (bs "ac"))) (bs "xad") 0 = Failure e Committed) /\
  p_and (p_or a b) p_elm_digit (bs "b1") 0 = Success (chr "b", chr "1") 2 /\
  p_and (p_seqN (bs "a")) (p_seqN (bs "b")) (bs "xab") 1 = Success (bs "a", bs "b") 2 /\
  bounded digit /\ p_and digit (p_many0 digit) (bs "12x") 0 = Success (chr "1", [chr "2"]) 2 /\ p_or (p_many1 digit) (p_successful []) (bs "x") 0 = Success [] 0 /\
  p_and (p_many0 digit) (p_many0 digit) (bs "12x") 0 = Success (bs "12", []) 2 /\
  p_and (p_count digit 1) (p_count digit 2) (bs "123") 0 = Success (bs "1", bs "23") 3 /\
  p_filter (p_filter digit (N.leb (chr "3"))) (N.leb (chr "5")) (bs "7") 0 = Success (chr "7") 1 /\
  p_or (p_elm_pred is_ascii_digit) (p_elm_pred is_ascii_alpha) (bs "q") 0 = Success (chr "q") 1.
Proof. repeat split; try (vm_compute; reflexivity); [eexists; vm_compute; reflexivity|apply digit_bounded]. Qed.
Print Assumptions C122_grouping.
Print Assumptions C122_common_beginning.
Print Assumptions C122_common_beginning_refuted.
Print Assumptions C122_common_end.
Print Assumptions C122_common_end_refuted.
Print Assumptions C122_words.
Print Assumptions C122_unroll.
Print Assumptions C122_twice.
Print Assumptions C122_counts.
Print Assumptions C122_filters.
Print Assumptions C122_classes.
