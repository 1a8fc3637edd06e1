(** C12-C17: repetition and operator chains.  Specification vocabulary: [steps], [alternates], [Fails], [upper_ok],
    [min_ok] in RepFacts.v; [chain_rest], [left_fold], [right_fold] in ChainFacts.v. *)
From Verif Require Import Base Core Comb Closure RepFacts ChainFacts PropsA.
Set Implicit Arguments.
Local Open Scope string_scope.
Local Open Scope nat_scope.
Local Open Scope list_scope.

Definition digit : parser N N := p_elm_digit.
Definition comma : parser N N := p_elm (chr ",").
Lemma digit_bounded : bounded digit.
Proof. apply (built_bounded (leaf := no_leaf) (ofs := true) (pan := true)); [intros A p []|unfold digit; build]. Qed.
Lemma comma_bounded : bounded comma.
Proof. apply (built_bounded (leaf := no_leaf) (ofs := true) (pan := true)); [intros A p []|unfold comma; build]. Qed.

(** ** C12 *)
Theorem C12_many0_maximal : forall I A (p : parser I A) inp off vs l,
  bounded p -> off <= length inp ->
  p_many0 p inp off = Success vs l <-> steps p inp off vs l /\ Fails p inp (off + l).
Proof.
  intros I A p inp off vs l Hp Ho. unfold p_many0. rewrite many_none_success by (cbn; auto). cbn.
  split; [intros (H1 & _ & _ & [H2|H2]); tauto|]. intros [H1 H2]. repeat split; auto. lia.
Qed.

Theorem C12_many0_never_fails : forall I A (p : parser I A) inp off e c, p_many0 p inp off <> Failure e c.
Proof.
  intros I A p inp off e c H. apply rep_finish_failure in H. destruct H as (_ & vs & l & _ & Hm).
  apply Hm. cbn. lia.
Qed.

Theorem C12_many1_maximal : forall I A (p : parser I A) inp off vs l,
  bounded p -> off <= length inp ->
  p_many1 p inp off = Success vs l <-> vs <> [] /\ steps p inp off vs l /\ Fails p inp (off + l).
Proof.
  intros I A p inp off vs l Hp Ho. unfold p_many1. rewrite many_none_success by (cbn; auto). cbn.
  split.
  - intros (H1 & H2 & _ & [H3|H3]); [|tauto]. repeat split; auto. intros ->. cbn in H2. lia.
  - intros (H1 & H2 & H3). repeat split; auto. destruct vs; [congruence|cbn; lia].
Qed.

Theorem C12_many1_fails_iff : forall I A (p : parser I A) inp off,
  bounded p -> off <= length inp ->
  (Fails (p_many1 p) inp off <-> Fails p inp off) /\
  (forall e c, p_many1 p inp off = Failure e c -> c = Uncommitted).
Proof.
  intros I A p inp off Hp Ho.
  assert (U : forall e c, p_many1 p inp off = Failure e c -> c = Uncommitted).
  { intros e c. apply repeat_sep_uncommitted. }
  split; [|exact U].
  assert (K : Fails (p_many1 p) inp off <-> exists e, p_many1 p inp off = Failure e Uncommitted).
  { split; [|intros [e H]; exists e; eauto]. intros (e & c & H). pose proof (U _ _ H). subst c. eauto. }
  rewrite K. unfold p_many1. rewrite many_none_failure by (cbn; auto). cbn. split.
  - intros (vs & l & H1 & H2 & _ & [H3|H3]); [|tauto]. destruct vs; [|cbn in H2; lia]. inv H1.
    now rewrite Nat.add_0_r in H3.
  - intros H. exists [], 0. rewrite Nat.add_0_r. repeat split; auto; [constructor|cbn; lia].
Qed.

Example C12_example :
  p_many0 digit (bs "x12y") 1 = Success (bs "12") 2 /\
  steps digit (bs "x12y") 1 (bs "12") 2 /\ Fails digit (bs "x12y") (1 + 2) /\
  p_many0 digit (bs "xy") 1 = Success [] 0 /\ Fails digit (bs "xy") 1 /\ Fails (p_many1 digit) (bs "xy") 1.
Proof.
  assert (H : p_many0 digit (bs "x12y") 1 = Success (bs "12") 2) by (vm_compute; reflexivity).
  assert (1 <= length (bs "x12y")) by (cbn; lia).
  split; [exact H|]. apply C12_many0_maximal in H; [|exact digit_bounded|assumption].
  destruct H as [H1 H2]. repeat split; auto.
  - eexists _, _. vm_compute. reflexivity.
  - eexists _, _. vm_compute. reflexivity.
Qed.

Print Assumptions C12_many0_maximal.
Print Assumptions C12_many0_never_fails.
Print Assumptions C12_many1_maximal.
Print Assumptions C12_many1_fails_iff.

(** ** C13 *)
(** The meaning of the range argument (a..b, a..=b, a.., ..b, ..=b, .., n). *)
Definition in_bounds (r : range) (n : nat) : Prop :=
  match rg_start r with BIncluded a => a <= n | BExcluded a => a < n | BUnbounded => True end /\
  match rg_end r with BIncluded b => n <= b | BExcluded b => n < b | BUnbounded => True end.

(** Full statement: forall r p inp off vs l, p_repeat p r inp off = Success vs l -> in_bounds r (length vs).  It is
    false: the first element is taken before the bound is looked at, so ranges that only allow 0 items return 1. *)
Theorem C13_range_respected_refuted :
  exists (p : parser N N) inp vs l,
    parse (p_count p 0) inp = Success vs l /\ ~ in_bounds (rg_exact 0) (length vs) /\
    parse (p_repeat p (rg_ex 0 1)) inp = Success vs l /\ ~ in_bounds (rg_ex 0 1) (length vs) /\
    parse (p_many_n_m p 0 0) inp = Success vs l /\ ~ in_bounds (rg_in 0 0) (length vs).
Proof.
  exists digit, (bs "12"), (bs "1"), 1. repeat split; try (vm_compute; reflexivity); unfold in_bounds; cbn; lia.
Qed.

(** The ranges of the API: start() is Included or Unbounded (utils/range.rs). *)
Definition api_range (r : range) : Prop := match rg_start r with BExcluded _ => False | _ => True end.
(** The range allows one item. *)
Definition allows_one (r : range) : Prop :=
  match rg_end r with BIncluded b => 1 <= b | BExcluded b => 1 < b | BUnbounded => True end.

Lemma in_bounds_split : forall r n, api_range r -> in_bounds r n <-> min_ok (rg_start r) n /\ upper_ok (rg_end r) n.
Proof.
  intros [s e] n. unfold api_range, in_bounds. cbn. destruct s, e; cbn; tauto.
Qed.

(** For the ranges that allow one item the behaviour is exact: as many matches as possible within the range. *)
Theorem C13_repeat_exact_partial : forall I A (p : parser I A) r inp off vs l,
  bounded p -> off <= length inp -> api_range r -> allows_one r ->
  p_repeat p r inp off = Success vs l <->
  steps p inp off vs l /\ in_bounds r (length vs) /\
  (Fails p inp (off + l) \/ ~ upper_ok (rg_end r) (S (length vs))).
Proof.
  intros I A p r inp off vs l Hp Ho Hr H1. unfold p_repeat. rewrite many_none_success by assumption.
  rewrite in_bounds_split by assumption. tauto.
Qed.

(** With separators: the count is within the range too. *)
Theorem C13_repeat_sep_in_bounds_partial : forall I A B (p : parser I A) (sep : parser I B) r inp off vs l,
  api_range r -> allows_one r ->
  p_repeat_sep p r (Some sep) inp off = Success vs l -> in_bounds r (length vs).
Proof.
  intros I A B p sep r inp off vs l Hr H1 H. apply rep_finish_success in H. destruct H as [H Hm].
  rewrite in_bounds_split by assumption. split; [exact Hm|].
  destruct (p inp off) as [v n|e c| |]; try discriminate.
  - apply rep_loop_sound in H. destruct H as (vs' & k & -> & _ & T). cbn [rev List.app List.length].
    assert (G : forall cur count ws k, tail p sep (rg_end r) inp cur count ws k -> upper_ok (rg_end r) count ->
                upper_ok (rg_end r) (count + length ws)).
    { clear. intros cur count ws k H. induction H; intros Hc; cbn; rewrite ?Nat.add_0_r; auto.
      replace (count + S (length vs)) with (S count + length vs) by lia. apply IHtail.
      apply Decidable.not_not; [destruct (rg_end r); cbn; [apply Nat.le_decidable|apply Nat.lt_decidable|now left]|].
      intros N. apply H. now apply at_max_upper. }
    cbn in T. apply (G _ _ _ _ T). exact H1.
  - inv H. cbn. unfold allows_one in H1. destruct (rg_end r); cbn; lia || auto.
Qed.

(** What is missing from the full statement: the ranges that do not allow one item.  There at most one item is returned
    and it is out of range exactly when the element matches. *)
Theorem C13_repeat_none_allowed : forall I A B (p : parser I A) (sep : option (parser I B)) r inp off vs l,
  ~ allows_one r -> p_repeat_sep p r sep inp off = Success vs l -> length vs <= 1.
Proof.
  intros I A B p sep r inp off vs l H1 H. apply rep_finish_success in H. destruct H as [H Hm].
  destruct (p inp off) as [v n|e c| |]; try discriminate.
  - unfold rep_fuel in H. cbn [Nat.add rep_loop] in H.
    assert (Es : rep_stop (rg_end r) (length [v]) = true).
    { apply rep_stop_iff. apply at_max_upper. unfold allows_one in H1. destruct (rg_end r); cbn in *; lia || tauto. }
    rewrite Es in H. inv H. reflexivity.
  - inv H. cbn. lia.
Qed.

Theorem C13_count_exact : forall I A (p : parser I A) n inp off vs l,
  bounded p -> off <= length inp -> 0 < n ->
  p_count p n inp off = Success vs l <-> steps p inp off vs l /\ length vs = n.
Proof.
  intros I A p n inp off vs l Hp Ho Hn. unfold p_count. rewrite many_none_success by (cbn; auto). cbn.
  split; [intros (H1 & H2 & H3 & _); split; [exact H1|lia]|].
  intros [H1 H2]. repeat split; auto; lia || (right; lia).
Qed.

(** The seven ways of writing a range, in numbers: the maximal run, within the bounds as Rust reads them. *)
Theorem C13_range_forms_partial : forall I A (p : parser I A) inp off vs l a b,
  bounded p -> off <= length inp ->
  (1 < b -> p_repeat p (rg_ex a b) inp off = Success vs l <->
     steps p inp off vs l /\ a <= length vs < b /\ (Fails p inp (off + l) \/ length vs = b - 1)) /\
  (1 <= b -> p_repeat p (rg_in a b) inp off = Success vs l <->
     steps p inp off vs l /\ a <= length vs <= b /\ (Fails p inp (off + l) \/ length vs = b)) /\
  (p_repeat p (rg_from a) inp off = Success vs l <->
     steps p inp off vs l /\ a <= length vs /\ Fails p inp (off + l)) /\
  (1 < b -> p_repeat p (rg_to b) inp off = Success vs l <->
     steps p inp off vs l /\ length vs < b /\ (Fails p inp (off + l) \/ length vs = b - 1)) /\
  (1 <= b -> p_repeat p (rg_to_in b) inp off = Success vs l <->
     steps p inp off vs l /\ length vs <= b /\ (Fails p inp (off + l) \/ length vs = b)) /\
  (p_repeat p rg_full inp off = Success vs l <-> steps p inp off vs l /\ Fails p inp (off + l)) /\
  (1 <= b -> p_repeat p (rg_exact b) inp off = Success vs l <-> steps p inp off vs l /\ length vs = b).
Proof.
  intros I A p inp off vs l a b Hp Ho.
  repeat match goal with |- _ /\ _ => split end; intros; rewrite C13_repeat_exact_partial by (try assumption; exact I || (cbn; lia));
    unfold in_bounds; cbn; (split; [intros (H1 & [H2 H3] & H4)|intros (H1 & H2)]); intuition (auto; try lia; fail || auto).
Qed.
Example C13_example :
  p_repeat digit (rg_in 2 3) (bs "12345") 0 = Success (bs "123") 3 /\
  p_repeat digit (rg_ex 2 3) (bs "12345") 0 = Success (bs "12") 2 /\
  p_count digit 4 (bs "12345") 0 = Success (bs "1234") 4 /\
  fails_uncommitted (p_count digit 4) (bs "123") 0 /\
  api_range (rg_in 2 3) /\ allows_one (rg_in 2 3) /\ allows_one (rg_ex 2 3) /\ ~ allows_one (rg_to 1).
Proof.
  repeat split; try (vm_compute; reflexivity); try (unfold allows_one; cbn; lia).
  eexists. vm_compute. reflexivity.
Qed.

Print Assumptions C13_range_respected_refuted.
Print Assumptions C13_repeat_exact_partial.
Print Assumptions C13_repeat_sep_in_bounds_partial.
Print Assumptions C13_repeat_none_allowed.
Print Assumptions C13_count_exact.
Print Assumptions C13_range_forms_partial.
Example C13_forms_example : p_repeat digit (rg_to 3) (bs "12345") 0 = Success (bs "12") 2 /\
  p_repeat digit (rg_to_in 3) (bs "12345") 0 = Success (bs "123") 3 /\ p_repeat digit (rg_from 2) (bs "12345") 0 = Success (bs "12345") 5 /\
  p_repeat digit rg_full (bs "12x") 0 = Success (bs "12") 2 /\ p_repeat digit (rg_exact 2) (bs "12x") 0 = Success (bs "12") 2.
Proof. repeat split; vm_compute; reflexivity. Qed.

(** ** C14 *)
(** Full statement: a successful of_many1_sep consumes exactly e1 s1 e2 ... en, i.e. [alternates p sep inp off vs l].
    It is false: a separator without following element is consumed. *)
Theorem C14_alternation_refuted :
  exists inp vs l, parse (p_many1_sep digit comma) inp = Success vs l /\ ~ alternates digit comma inp 0 vs l /\
                   parse (p_many0_sep digit comma) inp = Success vs l.
Proof.
  exists (bs "1,x"), (bs "1"), 2. split; [vm_compute; reflexivity|]. split; [|vm_compute; reflexivity].
  intros H. inv H; [discriminate|]. match goal with H : alternates _ _ _ _ [] _ |- _ => inv H end.
Qed.

(** Exact behaviour: strict alternation, maximal, plus at most one dangling separator at the end. *)
Theorem C14_many1_sep_exact_partial : forall I A B (p : parser I A) (sep : parser I B) inp off vs l,
  bounded p -> bounded sep -> off <= length inp ->
  p_many1_sep p sep inp off = Success vs l <->
  exists l0, alternates p sep inp off vs l0 /\
    ((Fails sep inp (off + l0) /\ l = l0) \/
     (exists w m, sep inp (off + l0) = Success w m /\ Fails p inp (off + l0 + m) /\ l = l0 + m)).
Proof.
  intros I A B p sep inp off vs l Hp Hs Ho. unfold p_many1_sep. rewrite repeat_sep_success by assumption. cbn. split.
  - intros [H Hm]. inv H; [cbn in Hm; lia|].
    destruct (tail_alternates H1 _ eq_refl H0) as (l0 & Ha & He). exists l0. split; [exact Ha|exact He].
  - intros (l0 & Ha & He). destruct (alternates_tail Ha 1 He) as (v & n & vs' & k' & -> & Hpv & -> & Ht).
    split; [|cbn; lia]. econstructor; eauto.
Qed.

Theorem C14_many0_sep_exact_partial : forall I A B (p : parser I A) (sep : parser I B) inp off vs l,
  bounded p -> bounded sep -> off <= length inp ->
  p_many0_sep p sep inp off = Success vs l <->
  (vs = [] /\ l = 0 /\ Fails p inp off) \/
  exists l0, alternates p sep inp off vs l0 /\
    ((Fails sep inp (off + l0) /\ l = l0) \/
     (exists w m, sep inp (off + l0) = Success w m /\ Fails p inp (off + l0 + m) /\ l = l0 + m)).
Proof.
  intros I A B p sep inp off vs l Hp Hs Ho. unfold p_many0_sep. rewrite repeat_sep_success by assumption. cbn. split.
  - intros [H Hm]. inv H; [now left|right].
    destruct (tail_alternates H1 _ eq_refl H0) as (l0 & Ha & He). exists l0. split; [exact Ha|exact He].
  - intros [(-> & -> & Hf)|(l0 & Ha & He)]; [split; [now constructor|lia]|].
    destruct (alternates_tail Ha 1 He) as (v & n & vs' & k' & -> & Hpv & -> & Ht).
    split; [|lia]. econstructor; eauto.
Qed.

(** With a maximum: the loop stops without looking for a separator once there are m elements. *)
Lemma tail_up_to : forall I A B (p : parser I A) (sep : parser I B) m inp cur count vs k,
  tail p sep (BIncluded m) inp cur count vs k -> count <= m ->
  forall pos v n, cur = pos + n -> p inp pos = Success v n ->
  exists l0, alternates p sep inp pos (v :: vs) l0 /\ count + length vs <= m /\
    ((count + length vs = m /\ n + k = l0) \/
     count + length vs < m /\
     ((Fails sep inp (pos + l0) /\ n + k = l0) \/
      (exists w j, sep inp (pos + l0) = Success w j /\ Fails p inp (pos + l0 + j) /\ n + k = l0 + j))).
Proof.
  intros I A B p sep m inp cur count vs k H. induction H; intros Hm pos v0 n0 Hc Hp; subst cur; cbn [at_max length] in *.
  - exists n0. split; [now constructor|]. split; [lia|]. left. lia.
  - exists n0. split; [now constructor|]. split; [lia|]. right. split; [lia|]. left. split; [exact H0|lia].
  - exists n0. split; [now constructor|]. split; [lia|]. right. split; [lia|]. right. eauto 6.
  - destruct (IHtail ltac:(lia) _ _ _ eq_refl H1) as (l0 & Ha & L & He). exists (n0 + m0 + l0). split; [eapply alt_more; [exact Hp|exact H0|exact Ha]|]. split; [lia|].
    replace (pos + (n0 + m0 + l0)) with (pos + n0 + m0 + l0) by lia.
    destruct He as [[E1 E2]|[E1 [[F E2]|(w' & j & S1 & F & E2)]]]; [left|right; split; [lia|left]|right; split; [lia|right; exists w', j]]; repeat split; auto; lia.
Qed.
Lemma up_to_tail : forall I A B (p : parser I A) (sep : parser I B) m inp pos vs l0,
  alternates p sep inp pos vs l0 -> forall count k, count + length vs <= S m ->
  ((count + length vs = S m /\ k = l0) \/
   count + length vs < S m /\
   ((Fails sep inp (pos + l0) /\ k = l0) \/
    (exists w j, sep inp (pos + l0) = Success w j /\ Fails p inp (pos + l0 + j) /\ k = l0 + j))) ->
  exists v n vs' k', vs = v :: vs' /\ p inp pos = Success v n /\ k = n + k' /\
    tail p sep (BIncluded m) inp (pos + n) count vs' k'.
Proof.
  intros I A B p sep m inp pos vs l0 H. induction H; intros count k0 L He; cbn [length] in *.
  - exists v, n, []. destruct He as [[E ->]|[E [[He ->]|(w & j & He1 & He2 & ->)]]].
    + exists 0. repeat split; auto. apply tail_max. cbn. lia.
    + exists 0. repeat split; auto. apply tail_nosep; [cbn; lia|exact He].
    + exists j. repeat split; auto. eapply tail_dangling; [cbn; lia|exact He1|exact He2].
  - destruct (IHalternates (S count) (k0 - (n + m0))) as (v' & n' & vs' & k' & -> & Hp' & E' & Ht).
    + lia.
    + destruct He as [[E E1]|[E [[He E1]|(w' & j & He1 & He2 & E1)]]]; [left|right; split; [lia|left]|right; split; [lia|right; exists w', j]];
        try replace (pos + n + m0 + k) with (pos + (n + m0 + k)) by lia; repeat split; auto; lia.
    + assert (K : k0 = n + m0 + (n' + k')) by (destruct He as [[E E1]|[E [[He E1]|(w' & j & He1 & He2 & E1)]]]; lia).
      cbn [length] in L. exists v, n, (v' :: vs'), (m0 + n' + k'). repeat split; auto; [lia|]. eapply tail_more; [cbn; lia|eassumption|eassumption|]. exact Ht.
Qed.
(** Missing: m = 0 (see C13), and the dangling separator. *)
Theorem C14_many_n_m_sep_exact_partial : forall I A B (p : parser I A) (sep : parser I B) n m inp off vs l,
  bounded p -> bounded sep -> off <= length inp -> 0 < m ->
  p_many_n_m_sep p n m sep inp off = Success vs l <->
  (vs = [] /\ l = 0 /\ n = 0 /\ Fails p inp off) \/
  exists l0, alternates p sep inp off vs l0 /\ n <= length vs <= m /\
    ((length vs = m /\ l = l0) \/
     length vs < m /\
     ((Fails sep inp (off + l0) /\ l = l0) \/
      (exists w k, sep inp (off + l0) = Success w k /\ Fails p inp (off + l0 + k) /\ l = l0 + k))).
Proof.
  intros I A B p sep n m inp off vs l Hp Hs Ho Hm. unfold p_many_n_m_sep. rewrite repeat_sep_success by assumption. cbn. split.
  - intros [H Hn]. inv H; [left; repeat split; auto; cbn in Hn; lia|right].
    destruct (tail_up_to H1 ltac:(lia) _ eq_refl H0) as (l0 & Ha & L & He). exists l0. split; [exact Ha|]. cbn in Hn |- *. split; [lia|]. exact He.
  - intros [(-> & -> & -> & Hf)|(l0 & Ha & L & He)]; [split; [now constructor|cbn; lia]|].
    destruct (@up_to_tail I A B p sep m inp off vs l0 Ha 1 l) as (v & k & vs' & k' & -> & Hpv & -> & Ht); [lia|destruct He as [He|[He1 He2]]; [left; lia|right; split; [lia|exact He2]]|].
    split; [|lia]. econstructor; eauto.
Qed.
(** A count of separated elements: no separator behind the last one. *)
Theorem C14_count_sep_exact : forall I A B (p : parser I A) (sep : parser I B) n inp off vs l,
  bounded p -> bounded sep -> off <= length inp -> 0 < n ->
  p_count_sep p n sep inp off = Success vs l <-> alternates p sep inp off vs l /\ length vs = n.
Proof.
  intros I A B p sep n inp off vs l Hp Hs Ho Hn. change (p_count_sep p n sep) with (p_many_n_m_sep p n n sep).
  rewrite C14_many_n_m_sep_exact_partial by assumption. split.
  - intros [(_ & _ & E & _)|(l0 & Ha & L & [[E ->]|[E _]])]; [lia|now split|lia].
  - intros [Ha E]. right. exists l. split; [exact Ha|]. split; [lia|]. left. now split.
Qed.

Example C14_example :
  p_many1_sep digit comma (bs "1,2;") 0 = Success (bs "12") 3 /\
  alternates digit comma (bs "1,2;") 0 (bs "12") 3 /\ Fails comma (bs "1,2;") 3 /\
  p_many1_sep digit comma (bs "1,2,;") 0 = Success (bs "12") 4.
Proof.
  repeat split; try (vm_compute; reflexivity).
  - change 3 with (1 + 1 + 1). eapply alt_more; [vm_compute; reflexivity|vm_compute; reflexivity|].
    apply alt_one. vm_compute. reflexivity.
  - eexists _, _. vm_compute. reflexivity.
Qed.

Print Assumptions C14_alternation_refuted.
Print Assumptions C14_many1_sep_exact_partial.
Print Assumptions C14_many0_sep_exact_partial.
Print Assumptions C14_many_n_m_sep_exact_partial.
Print Assumptions C14_count_sep_exact.
Example C14_count_example : p_count_sep digit 2 comma (bs "1,2,3") 0 = Success (bs "12") 3 /\ fails_uncommitted (p_count_sep digit 3 comma) (bs "1,2;") 0 /\
  p_many_n_m_sep digit 1 3 comma (bs "1,2,;") 0 = Success (bs "12") 4.
Proof. repeat split; try (vm_compute; reflexivity). eexists. vm_compute. reflexivity. Qed.

(** ** C15 *)
(** [p] never reports an empty success on this input. *)
Definition progresses {I A} (p : parser I A) (inp : list I) : Prop :=
  forall pos v n, pos <= length inp -> p inp pos = Success v n -> 0 < n.
Definition returns {I A} (p : parser I A) (inp : list I) : Prop :=
  forall pos, pos <= length inp -> p inp pos <> Diverge.

(** The answer is reached within remaining + 2 (+ upper bound) rounds of the loop, whatever larger budget is given. *)
Theorem C15_terminates : forall I A B (p : parser I A) (sep : parser I B) r inp off,
  bounded p -> bounded sep -> returns p inp -> returns sep inp ->
  (rg_end r = BUnbounded -> progresses p inp \/ progresses sep inp) -> off <= length inp ->
  forall fuel, 2 + (length inp - off) + bound_count (rg_end r) <= fuel ->
  repeat_sep_fuel fuel p r (Some sep) inp off <> Diverge.
Proof.
  intros I A B p sep r inp off Hp Hs Rp Rs Pr Ho fuel Hf H. unfold repeat_sep_fuel in H.
  destruct (p inp off) as [v n|e c| |] eqn:E.
  - pose proof (Hp _ _ _ _ Ho E) as B1.
    assert (T : rep_loop fuel p (Some sep) (rg_end r) inp (off + n) [v] n <> RDiverge).
    { apply rep_loop_terminates; auto; [|cbn; lia].
      intros Hu pos w m v' n' Hpos Hsep Hpp. pose proof (Hs _ _ _ _ Hpos Hsep). destruct (Pr Hu) as [P|P].
      - pose proof (P _ _ _ H0 Hpp). lia.
      - pose proof (P _ _ _ Hpos Hsep). lia. }
    destruct (rep_loop fuel p (Some sep) (rg_end r) inp (off + n) [v] n) as [its al| |]; [|discriminate|congruence].
    cbn [rep_finish] in H. destruct (rg_start r) as [k|k|]; try discriminate.
    destruct (length its <? k); [|discriminate]. destruct (ps_input _ _); discriminate.
  - cbn [rep_finish] in H. destruct (rg_start r) as [k|k|]; try discriminate.
    destruct (length [] <? k); [|discriminate]. destruct (ps_input _ _); discriminate.
  - discriminate.
  - exact (Rp _ Ho E).
Qed.

(** Same without separator. *)
Theorem C15_terminates_nosep : forall I A (p : parser I A) r inp off,
  bounded p -> returns p inp -> (rg_end r = BUnbounded -> progresses p inp) -> off <= length inp ->
  forall fuel, 2 + (length inp - off) + bound_count (rg_end r) <= fuel ->
  repeat_sep_fuel fuel p r (None : option (parser I unit)) inp off <> Diverge.
Proof.
  intros I A p r inp off Hp Rp Pr Ho fuel Hf. rewrite repeat_none.
  apply C15_terminates; auto using bounded_unit. intros pos _. discriminate.
Qed.

(** An unbounded repetition whose element matches the empty text at the place reached never returns: whatever the
    number of rounds allowed, the loop has not finished. *)
Theorem C15_empty_match_diverges : forall I A (p : parser I A) r inp off vs l v,
  rg_end r = BUnbounded -> steps p inp off vs l -> p inp (off + l) = Success v 0 ->
  forall fuel, repeat_sep_fuel fuel p r (None : option (parser I unit)) inp off = Diverge.
Proof.
  intros I A p r inp off vs l v Hu Hs Hv fuel. rewrite repeat_none. unfold repeat_sep_fuel. rewrite Hu.
  inv Hs.
  - rewrite Nat.add_0_r in Hv. rewrite Hv, Nat.add_0_r.
    rewrite (@rep_zero_diverges _ _ _ p (p_successful tt) inp off tt v); auto.
  - rewrite H. rewrite (rep_steps_diverges H0 (v := v)); [reflexivity|]. rewrite <- Nat.add_assoc. exact Hv.
Qed.

(** The budget of the model's loop is adequate: a larger one never changes the result. *)
Theorem C15_budget_adequate : forall I A B (p : parser I A) r (sep : parser I B) inp off,
  bounded p -> bounded sep -> off <= length inp ->
  (forall fuel, 2 + (length inp - off) + bound_count (rg_end r) <= fuel ->
     repeat_sep_fuel fuel p r (Some sep) inp off = p_repeat_sep p r (Some sep) inp off) /\
  (p_repeat_sep p r (Some sep) inp off = Diverge -> forall fuel, repeat_sep_fuel fuel p r (Some sep) inp off = Diverge).
Proof. exact repeat_sep_adequate. Qed.

Example C15_example :
  progresses digit (bs "12") /\ returns digit (bs "12") /\ p_many0 digit (bs "12") 0 = Success (bs "12") 2 /\
  (forall fuel, repeat_sep_fuel fuel (p_opt digit) (rg_from 0) (None : option (parser N unit)) (bs "1x") 0 = Diverge).
Proof.
  split; [|split; [|split]].
  - intros pos v n Hp H. unfold digit, p_elm_digit, p_elm_pred, p_map, p_elm_pred_ref in H.
    destruct (ps_input (bs "12") pos) as [[|x r]|]; try discriminate. destruct (is_ascii_digit x); [|discriminate]. inv H. lia.
  - intros pos Hp H. unfold digit, p_elm_digit, p_elm_pred, p_map, p_elm_pred_ref in H.
    destruct (ps_input (bs "12") pos) as [[|x r]|]; try discriminate. destruct (is_ascii_digit x); discriminate.
  - vm_compute. reflexivity.
  - eapply C15_empty_match_diverges with (vs := [Some (chr "1")]) (l := 1); [reflexivity| |vm_compute; reflexivity].
    change 1 with (1 + 0). econstructor; [vm_compute; reflexivity|constructor].
Qed.

Print Assumptions C15_terminates.
Print Assumptions C15_terminates_nosep.
Print Assumptions C15_empty_match_diverges.
Print Assumptions C15_budget_adequate.

(** ** C16 *)
Theorem C16_chain_left1_fold : forall I A (p : parser I A) op inp off v l,
  bounded p -> bounded op -> off <= length inp ->
  p_chain_left1 p op inp off = Success v l <->
  exists x n fys m, p inp off = Success x n /\ chain_rest p op inp (off + n) fys m /\
    chain_ends p op inp (off + n + m) /\ v = left_fold x fys /\ l = n + m.
Proof. exact chain_left1_success. Qed.

(** Failure: the first operand fails (same failure), or later on a committed failure. *)
Theorem C16_chain_left1_failure : forall I A (p : parser I A) op inp off e c,
  bounded p -> bounded op -> off <= length inp ->
  p_chain_left1 p op inp off = Failure e c <->
  p inp off = Failure e c \/
  (c = Committed /\ exists x n fys m, p inp off = Success x n /\ chain_rest p op inp (off + n) fys m /\
    chain_breaks p op inp (off + n + m) e).
Proof. exact chain_left1_failure. Qed.

(** In particular an operator that consumed input and has no operand after it. *)
Theorem C16_dangling_operator : forall I A (p : parser I A) op inp off x n fys m f k e c,
  bounded p -> bounded op -> off <= length inp ->
  p inp off = Success x n -> chain_rest p op inp (off + n) fys m ->
  op inp (off + n + m) = Success f k -> 0 < k -> p inp (off + n + m + k) = Failure e c ->
  p_chain_left1 p op inp off = Failure e Committed.
Proof.
  intros I A p op inp off x n fys m f k e c Hp Hop Ho H1 H2 H3 H4 H5.
  apply chain_left1_failure; auto. right. split; [reflexivity|]. exists x, n, fys, m. repeat split; auto.
  right. exists f, k, c. auto.
Qed.

(** The model's recursion budget is adequate. *)
Theorem C16_budget_adequate : forall I A (p : parser I A) op inp,
  bounded p -> bounded op -> forall K off x, off <= length inp ->
  rest_left1_fuel K p op x inp off <> Diverge ->
  forall F, F >= S (S (length inp - off)) ->
  rest_left1_fuel F p op x inp off = rest_left1_fuel K p op x inp off.
Proof. exact rest_left1_fuel_adequate. Qed.

(** chain_left0 falls back to its default only on an uncommitted failure of the first operand. *)
Theorem C16_chain_left0 : forall I A (p : parser I A) op d inp off,
  bounded p -> bounded op -> off <= length inp -> 
  p_chain_left0 p op d inp off =
  match p inp off with Failure _ Uncommitted => Success d 0 | _ => p_chain_left1 p op inp off end.
Proof.
  intros I A p op d inp off Hp Hop Ho. unfold p_chain_left0, p_or.
  destruct (p inp off) as [x n|e c| |] eqn:E.
  - destruct (p_chain_left1 p op inp off) as [v l|e' c'| |] eqn:R; try reflexivity.
    rewrite chain_left1_failure in R by assumption. destruct R as [H|[-> _]]; [congruence|reflexivity].
  - unfold p_chain_left1, p_flat_map. rewrite E. now destruct c.
  - unfold p_chain_left1, p_flat_map. rewrite E. reflexivity.
  - unfold p_chain_left1, p_flat_map. rewrite E. reflexivity.
Qed.

Definition num : parser N Z := p_map digit (fun d => (Z.of_N d - 48)%Z).
Definition minus : parser N (Z -> Z -> Z) := p_map (p_elm (chr "-")) (fun _ => Z.sub).
Example C16_example :
  parse (p_chain_left1 num minus) (bs "9-3-2") = Success 4%Z 5 /\
  left_fold 9%Z [(Z.sub, 3%Z); (Z.sub, 2%Z)] = 4%Z /\
  chain_rest num minus (bs "9-3-2") 1 [(Z.sub, 3%Z); (Z.sub, 2%Z)] 4 /\
  erase (parse (p_chain_left1 num minus) (bs "9-")) = ShFailure Committed.
Proof.
  split; [vm_compute; reflexivity|]. split; [reflexivity|]. split; [|vm_compute; reflexivity].
  change 4 with (1 + 1 + (1 + 1 + 0)).
  repeat (eapply cr_cons; [vm_compute; reflexivity|vm_compute; reflexivity|]). constructor.
Qed.

Print Assumptions C16_chain_left1_fold.
Print Assumptions C16_chain_left1_failure.
Print Assumptions C16_dangling_operator.
Print Assumptions C16_budget_adequate.
Print Assumptions C16_chain_left0.

(** ** C17 *)
(** Full statement: chain_right1 returns [right_fold x fys].  It is false: the source calls rest_left1. *)
Theorem C17_right_assoc_refuted :
  exists (p : parser N Z) op inp x fys l v,
    p inp 0 = Success x 1 /\ chain_rest p op inp 1 fys l /\ chain_ends p op inp (1 + l) /\
    parse (p_chain_right1 p op) inp = Success v (1 + l) /\ v <> right_fold x fys /\
    parse (p_scan_right1 p op) inp = Success v (1 + l).
Proof.
  exists num, minus, (bs "9-3-2"), 9%Z, [(Z.sub, 3%Z); (Z.sub, 2%Z)], (1 + 1 + (1 + 1 + 0)), 4%Z.
  repeat split; try (vm_compute; reflexivity).
  - repeat (eapply cr_cons; [vm_compute; reflexivity|vm_compute; reflexivity|]). constructor.
  - left. eexists. vm_compute. reflexivity.
  - vm_compute. discriminate.
Qed.

(** What it is: the left fold, always. *)
Theorem C17_chain_right1_is_left : forall I A (p : parser I A) op inp off,
  p_chain_right1 p op inp off = p_chain_left1 p op inp off.
Proof. reflexivity. Qed.

(** Right association holds when the operators are one associative function, or when there is at most one operator.
    Missing: non-associative operators with chains of two or more. *)
Theorem C17_right_assoc_partial : forall I A (p : parser I A) op f inp off v l,
  bounded p -> bounded op -> off <= length inp ->
  (forall a b c, f a (f b c) = f (f a b) c) ->
  (forall pos g k, op inp pos = Success g k -> g = f) ->
  p_chain_right1 p op inp off = Success v l <->
  exists x n fys m, p inp off = Success x n /\ chain_rest p op inp (off + n) fys m /\
    chain_ends p op inp (off + n + m) /\ v = right_fold x fys /\ l = n + m.
Proof.
  intros I A p op f inp off v l Hp Hop Ho Ha Hf.
  assert (F : forall pos fys m, chain_rest p op inp pos fys m -> Forall (fun fy => fst fy = f) fys).
  { intros pos fys m H. induction H; constructor; eauto. }
  change (p_chain_right1 p op inp off) with (p_chain_left1 p op inp off).
  rewrite chain_left1_success by assumption.
  split; intros (x & n & fys & m & H1 & H2 & H3 & -> & ->); exists x, n, fys, m; repeat split; auto;
    [symmetry|]; eapply right_fold_assoc; eauto.
Qed.

Definition plus_op : parser N (Z -> Z -> Z) := p_map (p_elm (chr "+")) (fun _ => Z.add).
Example C17_example :
  parse (p_chain_right1 num plus_op) (bs "9+3+2") = Success 14%Z 5 /\
  right_fold 9%Z [(Z.add, 3%Z); (Z.add, 2%Z)] = 14%Z /\
  (forall pos g k, plus_op (bs "9+3+2") pos = Success g k -> g = Z.add).
Proof.
  split; [vm_compute; reflexivity|]. split; [reflexivity|]. intros pos g k H.
  unfold plus_op, p_map in H. destruct (p_elm (chr "+") (bs "9+3+2") pos); try discriminate. now inv H.
Qed.

Print Assumptions C17_right_assoc_refuted.
Print Assumptions C17_chain_right1_is_left.
(** rest_right1 applies at most one operator, the accumulator being the left operand. *)
Theorem C17_rest_right1 : forall I A (p : parser I A) op x inp off v l,
  p_rest_right1 p op x inp off = Success v l <->
  (exists f n y m, op inp off = Success f n /\ p inp (off + n) = Success y m /\ v = f x y /\ l = n + m) \/
  (v = x /\ l = 0 /\ (fails_uncommitted op inp off \/ exists f, op inp off = Success f 0 /\ fails_uncommitted p inp off)).
Proof.
  intros I A p op x inp off v l.
  assert (Z : off + 0 = off) by lia.
  unfold p_rest_right1, p_or, p_flat_map, p_map, p_successful, fails_uncommitted. split.
  - destruct (op inp off) as [f n|e [|]| |] eqn:E; try (intros H; discriminate).
    + destruct (p inp (off + n)) as [y m|e c| |] eqn:E2; try (intros H; discriminate).
      * intros H. inv H. left. exists f, n, y, m. repeat split; auto; lia.
      * destruct n as [|n]; destruct c; intros H; try discriminate. cbn in H. inv H. right. rewrite Z in E2. eauto 8.
    + intros H. cbn in H. inv H. right. eauto 8.
  - intros [(f & n & y & m & H1 & H2 & E1 & E2)|(E1 & E2 & [[e H]|(f & H1 & [e H2])])]; subst v l.
    + rewrite H1, H2. cbn. f_equal; lia.
    + rewrite H. reflexivity.
    + rewrite H1, Z, H2. reflexivity.
Qed.
Print Assumptions C17_rest_right1.
Example C17_rest_right1_example : p_rest_right1 num minus 9%Z (bs "-3-2") 0 = Success 6%Z 2 /\ p_rest_right1 num minus 9%Z (bs "x") 0 = Success 9%Z 0.
Proof. split; vm_compute; reflexivity. Qed.
Print Assumptions C17_right_assoc_partial.
