(** C01-C11: the closure of the combinators, choice, sequencing, mapping, filtering, lookahead. *)
From Verif Require Import Base Core Comb Closure Shift.
Set Implicit Arguments.
Local Open Scope string_scope.
Local Open Scope nat_scope.
Local Open Scope list_scope.

(** ** C01 *)

(** Every parser of the closure (any nesting, any closures, offset parsers and panicking map closures included, any
    additional bounded primitives) reports a length inside the input. *)
Theorem C01_consumption_bounded :
  forall I (leaf : forall A, parser I A -> Prop),
  (forall A (p : parser I A), leaf A p -> bounded p) ->
  forall A (p : parser I A), built leaf true true p ->
  forall inp off v n, off <= length inp -> p inp off = Success v n -> off + n <= length inp.
Proof. intros I leaf Hleaf A p Hb. exact (built_bounded Hleaf Hb). Qed.

(** A grammar with nesting, repetition, lookahead and flat_map, as a member of the closure. *)
Definition ex_grammar : parser N (list (list N)) :=
  p_many1_sep
    (p_flat_map (p_skip_left (p_not (p_elm (chr "-"))) p_elm_digit)
       (fun d => p_or (p_attempt (p_collect (p_and (p_elm d) (p_seqN (bs "xy"))))) (p_take 1)))
    (p_elm (chr ",")).
Lemma ex_grammar_built : forall ofs pan, built no_leaf ofs pan ex_grammar.
Proof. intros. build. Qed.
Example C01_example :
  ex_grammar (bs "?1a,22xy,3") 1 = Success [bs "a"; bs "2xy"] 8 /\ 1 + 8 <= length (bs "?1a,22xy,3").
Proof. split; [vm_compute; reflexivity|vm_compute; lia]. Qed.

(** regex is outside the closure because it counts bytes: a match of one non-ASCII character of a one-character input
    is reported with length 2. *)
Definition whole_match (s : list N) : option (list N) := Some s.
Theorem C01_regex_bounded_refuted :
  exists (find : list N -> option (list N)) inp v n,
    (forall s, find s = Some s) /\
    p_regex find inp 0 = Success v n /\ length inp < 0 + n.
Proof.
  exists whole_match, [233%N], [233%N], 2. vm_compute. repeat split. auto.
Qed.

(** regex is bounded on inputs of ASCII characters when the match is a part of the input. *)
Theorem C01_regex_ascii_bounded : forall (find : list N -> option (list N)) inp off v n,
  (forall s m, find s = Some m -> exists a b, s = a ++ m ++ b) ->
  (forall x, In x inp -> (x < 128)%N) ->
  off <= length inp -> p_regex find inp off = Success v n -> off + n <= length inp.
Proof.
  intros find inp off v n Hf Ha Ho H. unfold p_regex in H. rewrite ps_input_ok in H by exact Ho.
  destruct (find (skipn off inp)) as [str|] eqn:E; [|discriminate]. inv H.
  destruct (Hf _ _ E) as (a & b & Es).
  assert (Hin : forall x, In x v -> (x < 128)%N).
  { intros x Hx. apply Ha. rewrite <- (firstn_skipn off inp). rewrite Es.
    rewrite !in_app_iff. auto. }
  assert (L : utf8_len v = length v).
  { clear -Hin. induction v as [|c v IH]; [reflexivity|].
    cbn [utf8_len fold_right List.length]. fold (utf8_len v).
    rewrite IH by (intros; apply Hin; now right).
    unfold utf8_len_char. destruct (N.ltb_spec c 128); [reflexivity|].
    specialize (Hin c (or_introl eq_refl)). lia. }
  rewrite L. assert (length (skipn off inp) = length (a ++ v ++ b)) by now rewrite Es.
  rewrite skipn_length, !app_length in H. lia.
Qed.
Example C01_regex_ascii_example :
  p_regex (fun s => match s with x :: _ => Some [x] | [] => None end) (bs "ab") 1 = Success (bs "b") 1.
Proof. reflexivity. Qed.

Print Assumptions C01_consumption_bounded.
Print Assumptions C01_regex_bounded_refuted.
Print Assumptions C01_regex_ascii_bounded.

(** ** C02 *)
Theorem C02_no_panic :
  forall I (leaf : forall A, parser I A -> Prop),
  (forall A (p : parser I A), leaf A p -> bounded p /\ no_panic p) ->
  forall A (p : parser I A), built leaf true false p ->
  forall inp off, off <= length inp -> p inp off <> Panic.
Proof. intros I leaf Hleaf A p Hb. exact (built_no_panic Hleaf Hb). Qed.
Example C02_example : built no_leaf true false ex_grammar /\ ex_grammar (bs "-1") 0 <> Panic.
Proof. split; [apply ex_grammar_built|vm_compute; discriminate]. Qed.

(** Outside the regex-free closure panics are real: a regex match of a non-ASCII character followed by any parser that
    looks at the input. *)
Theorem C02_regex_panics_refuted :
  exists (find : list N -> option (list N)) inp,
    (forall s, find s = Some s) /\ parse (p_and (p_regex find) p_end) inp = Panic.
Proof. exists whole_match, [233%N]. split; [reflexivity|vm_compute; reflexivity]. Qed.

Print Assumptions C02_no_panic.
Print Assumptions C02_regex_panics_refuted.

(** ** C03 *)
Definition fails_uncommitted {I A} (p : parser I A) inp off := exists e, p inp off = Failure e Uncommitted.

Theorem C03_or_second : forall I A (p q : parser I A) inp off,
  fails_uncommitted p inp off -> p_or p q inp off = q inp off.
Proof. intros I A p q inp off [e H]. unfold p_or. now rewrite H. Qed.

Theorem C03_or_first : forall I A (p q : parser I A) inp off,
  ~ fails_uncommitted p inp off -> p_or p q inp off = p inp off.
Proof.
  intros I A p q inp off H. unfold p_or. destruct (p inp off) as [v n|e [|]| |] eqn:E; try reflexivity.
  exfalso. apply H. now exists e.
Qed.

Theorem C03_or_assoc : forall I A (p q r : parser I A) inp off,
  p_or (p_or p q) r inp off = p_or p (p_or q r) inp off.
Proof. intros. unfold p_or. destruct (p inp off) as [v n|e [|]| |]; reflexivity. Qed.

Theorem C03_or_left_identity : forall I A (q : parser I A) e inp off,
  p_or (p_failed e Uncommitted) q inp off = q inp off.
Proof. reflexivity. Qed.

Theorem C03_or_left_zero : forall I A (q : parser I A) e inp off,
  p_or (p_failed e Committed) q inp off = Failure e Committed.
Proof. reflexivity. Qed.

(** An uncommitted failure is a right identity up to the reported error. *)
Theorem C03_or_right_identity : forall I A (p : parser I A) e inp off,
  erase (p_or p (p_failed e Uncommitted) inp off) = erase (p inp off).
Proof. intros. unfold p_or. destruct (p inp off) as [v n|e0 [|]| |]; reflexivity. Qed.

Theorem C03_or_idempotent : forall I A (p : parser I A) inp off, p_or p p inp off = p inp off.
Proof. intros. unfold p_or. destruct (p inp off) as [v n|e [|]| |] eqn:E; reflexivity. Qed.

Example C03_example :
  let p := p_map (p_seqN (bs "ab")) (fun _ => 1) in
  let q := p_map (p_seqN (bs "cd")) (fun _ => 2) in
  fails_uncommitted p (bs "cd") 0 /\ parse (p_or p q) (bs "cd") = Success 2 2 /\
  ~ fails_uncommitted p (bs "ac") 0 /\ erase (parse (p_or p q) (bs "ac")) = ShFailure Committed.
Proof.
  cbn zeta. repeat split.
  - eexists. vm_compute. reflexivity.
  - intros [e H]. vm_compute in H. discriminate.
Qed.

Print Assumptions C03_or_second.
Print Assumptions C03_or_first.
Print Assumptions C03_or_assoc.
Print Assumptions C03_or_left_identity.
Print Assumptions C03_or_left_zero.
Print Assumptions C03_or_right_identity.
Print Assumptions C03_or_idempotent.

(** ** C04 *)
Theorem C04_attempt_success : forall I A (p : parser I A) inp off v n,
  p_attempt p inp off = Success v n <-> p inp off = Success v n.
Proof.
  intros. unfold p_attempt. destruct (p inp off) as [v' n'|e [|]| |]; cbn; split; intros H; congruence.
Qed.

Theorem C04_attempt_failure : forall I A (p : parser I A) inp off e c,
  p_attempt p inp off = Failure e c <-> c = Uncommitted /\ exists c', p inp off = Failure e c'.
Proof.
  intros. unfold p_attempt. destruct (p inp off) as [v' n'|e' [|]| |]; cbn; split; intros H;
    try discriminate; try (destruct H as [_ [c' H]]; discriminate).
  - inv H. eauto.
  - destruct H as [-> [c' H]]. inv H. reflexivity.
  - inv H. eauto.
  - destruct H as [-> [c' H]]. inv H. reflexivity.
Qed.

Theorem C04_attempt_or : forall I A (p q : parser I A) inp off e c,
  p inp off = Failure e c -> p_or (p_attempt p) q inp off = q inp off.
Proof. intros I A p q inp off e c H. unfold p_or, p_attempt. rewrite H. now destruct c. Qed.

Theorem C04_attempt_idempotent : forall I A (p : parser I A) inp off,
  p_attempt (p_attempt p) inp off = p_attempt p inp off.
Proof. intros. unfold p_attempt. destruct (p inp off) as [v' n'|e' [|]| |]; reflexivity. Qed.

Example C04_example :
  let p := p_map (p_seqN (bs "ab")) (fun _ => 1) in
  let q := p_map (p_seqN (bs "ac")) (fun _ => 2) in
  erase (parse p (bs "ac")) = ShFailure Committed /\
  parse (p_or p q) (bs "ac") <> Success 2 2 /\
  parse (p_or (p_attempt p) q) (bs "ac") = Success 2 2.
Proof. cbn zeta. repeat split; vm_compute; congruence. Qed.

Print Assumptions C04_attempt_success.
Print Assumptions C04_attempt_failure.
Print Assumptions C04_attempt_or.
Print Assumptions C04_attempt_idempotent.

(** ** C05 *)
Theorem C05_left_identity : forall I A B (a : A) (f : A -> parser I B) inp off,
  p_flat_map (p_successful a) f inp off = f a inp off.
Proof.
  intros. unfold p_flat_map, p_successful. rewrite Nat.add_0_r. cbn.
  destruct (f a inp off) as [v n|e [|]| |]; cbn; try reflexivity. now rewrite Nat.add_0_r.
Qed.

Theorem C05_right_identity : forall I A (p : parser I A) inp off,
  p_flat_map p (fun a => p_successful a) inp off = p inp off.
Proof.
  intros. unfold p_flat_map, p_successful. destruct (p inp off) as [v n|e c| |]; reflexivity.
Qed.

Theorem C05_associativity : forall I A B C (p : parser I A) (f : A -> parser I B) (g : B -> parser I C) inp off,
  p_flat_map (p_flat_map p f) g inp off = p_flat_map p (fun x => p_flat_map (f x) g) inp off.
Proof.
  intros. unfold p_flat_map.
  destruct (p inp off) as [v n|e c| |]; try reflexivity.
  destruct (f v inp (off + n)) as [w m|e c| |]; try reflexivity. cbn [add_commit advance_success].
  replace (off + (m + n)) with (off + n + m) by lia.
  destruct (g w inp (off + n + m)) as [x l|e c| |]; cbn; try reflexivity.
  - f_equal. lia.
  - f_equal. destruct n, m, c; reflexivity.
Qed.
Example C05_example :
  let p := p_elm_digit in
  let f := fun d => p_map (p_elm d) (fun x => (d, x)) in
  let g := fun dx : N * N => p_elm (snd dx) in
  parse (p_flat_map (p_flat_map p f) g) (bs "333") = Success (chr "3") 3 /\
  erase (parse (p_flat_map (p_flat_map p f) g) (bs "334")) = ShFailure Committed.
Proof. split; reflexivity. Qed.

Print Assumptions C05_left_identity.
Print Assumptions C05_right_identity.
Print Assumptions C05_associativity.

(** ** C06 *)
Theorem C06_commit_after_consumption : forall I A B (p : parser I A) (f : A -> parser I B) q inp off a n e c,
  p inp off = Success a n -> n > 0 -> f a inp (off + n) = Failure e c ->
  p_flat_map p f inp off = Failure e Committed /\ p_or (p_flat_map p f) q inp off = Failure e Committed.
Proof.
  intros I A B p f q inp off a n e c Hp Hn Hf.
  assert (H : p_flat_map p f inp off = Failure e Committed).
  { unfold p_flat_map. rewrite Hp, Hf. destruct n; [lia|]. destruct c; reflexivity. }
  split; [exact H|]. unfold p_or. now rewrite H.
Qed.

Theorem C06_no_consumption_keeps_status : forall I A B (p : parser I A) (f : A -> parser I B) inp off a e c,
  p inp off = Success a 0 -> f a inp off = Failure e c -> p_flat_map p f inp off = Failure e c.
Proof.
  intros I A B p f inp off a e c Hp Hf. unfold p_flat_map. rewrite Hp, Nat.add_0_r, Hf. cbn.
  destruct c; reflexivity.
Qed.
Example C06_example :
  let p := p_elm (chr "a") in
  let f := fun _ : N => p_elm (chr "b") in
  exists e, parse p (bs "ac") = Success (chr "a") 1 /\ f (chr "a") (bs "ac") 1 = Failure e Uncommitted /\
            parse (p_flat_map p f) (bs "ac") = Failure e Committed.
Proof. eexists. repeat split. Qed.

Print Assumptions C06_commit_after_consumption.
Print Assumptions C06_no_consumption_keeps_status.

(** ** C07 *)
(** p + q is not the flat_map sequencing: the failure of q after p consumed input is uncommitted, so a choice around
    it tries the next branch. *)
Theorem C07_and_then_commits_refuted :
  exists (p q : parser N N) (r : parser N (N * N)) inp,
    parse (p_flat_map p (fun a => p_map q (fun b => (a, b)))) inp <> parse (p_and p q) inp /\
    (exists v n, parse (p_or (p_and p q) r) inp = Success v n) /\
    (exists e, parse (p_or (p_flat_map p (fun a => p_map q (fun b => (a, b)))) r) inp = Failure e Committed).
Proof.
  exists (p_elm (chr "a")), (p_elm (chr "b")), (p_successful (0%N, 0%N)), (bs "ac").
  vm_compute. repeat split; eauto. discriminate.
Qed.

(** Everything except that commit flag agrees: same successes, and the same failures with the same error. *)
Theorem C07_and_then_partial : forall I A B (p : parser I A) (q : parser I B) inp off,
  let fm := p_flat_map p (fun a => p_map q (fun b => (a, b))) inp off in
  (forall v n, p_and p q inp off = Success v n <-> fm = Success v n) /\
  (forall e, (exists c, p_and p q inp off = Failure e c) <-> (exists c, fm = Failure e c)) /\
  (forall e c, p_and p q inp off = Failure e c -> fm <> Failure e c ->
     c = Uncommitted /\ fm = Failure e Committed /\
     exists a n, p inp off = Success a n /\ n > 0 /\ q inp (off + n) = Failure e Uncommitted).
Proof.
  intros I A B p q inp off fm. unfold fm, p_and, p_flat_map, p_map.
  destruct (p inp off) as [a n|e c| |] eqn:Ep.
  - destruct (q inp (off + n)) as [b m|e c| |] eqn:Eq; cbn [add_commit advance_success].
    + rewrite (Nat.add_comm n m). repeat split; try (intros H; exact H); try (intros [c H]; discriminate);
        try discriminate.
    + repeat split; try discriminate.
      * intros [c' H]. inv H. eauto.
      * intros [c' H]. inv H. eauto.
      * inv H. destruct c0, n; cbn in H0; congruence.
      * inv H. destruct c0, n; cbn in *; congruence.
      * inv H. destruct c0; cbn in H0; [congruence|]. destruct n; cbn in H0; [congruence|].
        exists a, (S n). repeat split; [lia|exact Eq].
    + repeat split; try discriminate; intros [c H]; discriminate.
    + repeat split; try discriminate; intros [c H]; discriminate.
  - repeat split; try discriminate; eauto; try congruence.
  - repeat split; try discriminate; intros [c H]; discriminate.
  - repeat split; try discriminate; intros [c H]; discriminate.
Qed.

(** p * q and p - q are p + q followed by a projection, commit status included. *)
Theorem C07_skip_is_projection : forall I A B (p : parser I A) (q : parser I B) inp off,
  p_skip_left p q inp off = p_map (p_and p q) snd inp off /\
  p_skip_right p q inp off = p_map (p_and p q) fst inp off.
Proof.
  intros. unfold p_skip_left, p_skip_right, p_map, p_and.
  destruct (p inp off) as [a n|e c| |]; try (split; reflexivity).
  destruct (q inp (off + n)) as [b m|e c| |]; split; reflexivity.
Qed.
Example C07_example :
  parse (p_and (p_elm (chr "a")) (p_elm (chr "b"))) (bs "abc") = Success (chr "a", chr "b") 2 /\
  exists e, parse (p_and (p_elm (chr "a")) (p_elm (chr "b"))) (bs "ac") = Failure e Uncommitted.
Proof. split; [reflexivity|eexists; reflexivity]. Qed.

Print Assumptions C07_and_then_commits_refuted.
Print Assumptions C07_and_then_partial.
Print Assumptions C07_skip_is_projection.

(** ** C08 *)
Theorem C08_map_identity : forall I A (p : parser I A) inp off, p_map p (fun x => x) inp off = p inp off.
Proof. intros. unfold p_map. destruct (p inp off); reflexivity. Qed.

Theorem C08_map_composition : forall I A B C (p : parser I A) (f : A -> B) (g : B -> C) inp off,
  p_map (p_map p f) g inp off = p_map p (fun x => g (f x)) inp off.
Proof. intros. unfold p_map. destruct (p inp off); reflexivity. Qed.

(** map is flat_map into successful, and only the value changes. *)
Theorem C08_map_flat_map : forall I A B (p : parser I A) (f : A -> B) inp off,
  p_map p f inp off = p_flat_map p (fun a => p_successful (f a)) inp off.
Proof. intros. unfold p_map, p_flat_map, p_successful. destruct (p inp off) as [v n|e [|]| |]; reflexivity. Qed.

Theorem C08_map_keeps_shape : forall I A B (p : parser I A) (f : A -> B) inp off,
  (forall w n, p_map p f inp off = Success w n <-> exists v, p inp off = Success v n /\ w = f v) /\
  (forall e c, p_map p f inp off = Failure e c <-> p inp off = Failure e c).
Proof.
  intros. unfold p_map. destruct (p inp off) as [v n|e c| |]; split; intros; split; intros H; try discriminate;
    try (destruct H as [? [H _]]; discriminate).
  - inv H; eauto.
  - destruct H as [v' [H ->]]. now inv H.
  - congruence.
  - congruence.
Qed.
Example C08_example :
  parse (p_map (p_map p_elm_digit (fun c => (c - 48)%N)) (fun n => (n * 2)%N)) (bs "7") = Success 14%N 1.
Proof. reflexivity. Qed.

Print Assumptions C08_map_identity.
Print Assumptions C08_map_composition.
Print Assumptions C08_map_flat_map.
Print Assumptions C08_map_keeps_shape.

(** ** C09 *)
Theorem C09_filter_success : forall I A (p : parser I A) f inp off v n,
  p_filter p f inp off = Success v n <-> p inp off = Success v n /\ f v = true.
Proof.
  intros. unfold p_filter. destruct (p inp off) as [v' n'|e c| |]; try (split; [discriminate|intros [H _]; discriminate]).
  destruct (f v') eqn:E; split; intros H.
  - inv H. auto.
  - destruct H as [H _]. exact H.
  - discriminate.
  - destruct H as [H H']. inv H. congruence.
Qed.

Theorem C09_filter_reject_uncommitted : forall I A (p q : parser I A) f inp off v n,
  p inp off = Success v n -> f v = false ->
  fails_uncommitted (p_filter p f) inp off /\ p_or (p_filter p f) q inp off = q inp off.
Proof.
  intros I A p q f inp off v n Hp Hf.
  assert (H : fails_uncommitted (p_filter p f) inp off).
  { unfold fails_uncommitted, p_filter. rewrite Hp, Hf. eauto. }
  split; [exact H|]. now apply C03_or_second.
Qed.

Theorem C09_filter_passes_failure : forall I A (p : parser I A) f inp off e c,
  p inp off = Failure e c -> p_filter p f inp off = Failure e c.
Proof. intros I A p f inp off e c H. unfold p_filter. now rewrite H. Qed.

(** with_filter_not is the complement: of the two filters exactly one accepts each success of p. *)
Theorem C09_filter_not_complement : forall I A (p : parser I A) f inp off v n,
  p inp off = Success v n ->
  (p_filter p f inp off = Success v n /\ fails_uncommitted (p_filter_not p f) inp off) \/
  (p_filter_not p f inp off = Success v n /\ fails_uncommitted (p_filter p f) inp off).
Proof.
  intros I A p f inp off v n H. unfold p_filter_not, fails_uncommitted, p_filter. rewrite H.
  destruct (f v); cbn; eauto.
Qed.
(** The filter of the other parser trait goes through flat_map: a rejection commits iff input was consumed. *)
Theorem C09_pp_filter_success : forall I A (p : parser I A) f inp off v n,
  pp_filter p f inp off = Success v n <-> p inp off = Success v n /\ f v = true.
Proof.
  intros I A p f inp off v n. unfold pp_filter, p_flat_map, p_successful, p_failed. split.
  - destruct (p inp off) as [w m|e c| |]; try discriminate. destruct (f w) eqn:F; [|discriminate]. intros H. inv H.
    rewrite ?Nat.add_0_r. auto.
  - intros [-> ->]. now rewrite ?Nat.add_0_r.
Qed.
Theorem C09_pp_filter_reject : forall I A (p : parser I A) f inp off v n,
  p inp off = Success v n -> f v = false ->
  exists e, pp_filter p f inp off = Failure e (if n =? 0 then Uncommitted else Committed).
Proof.
  intros I A p f inp off v n H F. unfold pp_filter, p_flat_map, p_failed. rewrite H, F. destruct n; cbn; eauto.
Qed.
Example C09_pp_example : let even := fun c => N.even c in
  pp_filter p_elm_digit even (bs "4") 0 = Success (chr "4") 1 /\
  (exists e, pp_filter p_elm_digit even (bs "5") 0 = Failure e Committed) /\
  (exists e, pp_filter (p_successful 5%N) even (bs "5") 0 = Failure e Uncommitted).
Proof. repeat split; try (eexists; vm_compute; reflexivity). Qed.
Example C09_example :
  let even := fun c : N => N.even c in
  parse (p_filter p_elm_digit even) (bs "4") = Success (chr "4") 1 /\
  fails_uncommitted (p_filter p_elm_digit even) (bs "5") 0 /\
  parse (p_filter_not p_elm_digit even) (bs "5") = Success (chr "5") 1.
Proof. cbn zeta. repeat split. eexists. vm_compute. reflexivity. Qed.

Print Assumptions C09_filter_success.
Print Assumptions C09_filter_reject_uncommitted.
Print Assumptions C09_filter_passes_failure.
Print Assumptions C09_filter_not_complement.
Print Assumptions C09_pp_filter_success.
Print Assumptions C09_pp_filter_reject.

(** ** C10 *)
Definition succeeds {I A} (p : parser I A) inp off := exists v n, p inp off = Success v n.
Definition fails {I A} (p : parser I A) inp off := exists e c, p inp off = Failure e c.

Theorem C10_lookahead_consumes_nothing : forall I A (p : parser I A) inp off,
  (forall v n, p_peek p inp off = Success v n -> n = 0) /\
  (forall v n, p_exists p inp off = Success v n -> n = 0) /\
  (forall v n, p_not p inp off = Success v n -> n = 0).
Proof.
  intros. unfold p_peek, p_exists, p_not. destruct (p inp off); repeat split; intros v n H; try inv H; try reflexivity.
  destruct (ps_input inp (off + 0)); discriminate.
Qed.

Theorem C10_peek : forall I A (p : parser I A) inp off v,
  p_peek p inp off = Success v 0 <-> exists n, p inp off = Success v n.
Proof.
  intros. unfold p_peek. destruct (p inp off) as [w n|e c| |]; split; intros H; try discriminate;
    try (destruct H as [? H]; discriminate).
  - inv H. eauto.
  - destruct H as [m H]. now inv H.
Qed.

Theorem C10_exists : forall I A (p : parser I A) inp off,
  (p_exists p inp off = Success true 0 <-> succeeds p inp off) /\
  (p_exists p inp off = Success false 0 <-> fails p inp off) /\
  ~ fails (p_exists p) inp off.
Proof.
  intros. unfold p_exists, succeeds, fails.
  destruct (p inp off) as [w n|e c| |]; repeat split; intros H; try discriminate; eauto;
    try (destruct H as (?&?&H); discriminate).
Qed.

Theorem C10_not : forall I A (p : parser I A) inp off, off <= length inp ->
  (succeeds (p_not p) inp off <-> fails p inp off) /\
  (fails (p_not p) inp off <-> succeeds p inp off) /\
  (succeeds (p_not (p_not p)) inp off <-> succeeds p inp off).
Proof.
  intros I A p inp off Ho. unfold p_not, succeeds, fails. rewrite Nat.add_0_r, ps_input_ok by exact Ho.
  destruct (p inp off) as [w n|e c| |]; cbn; rewrite ?Nat.add_0_r, ?(ps_input_ok _ Ho);
    repeat split; intros (?&?&H); try discriminate; unfold failed_with_uncommitted; eauto.
Qed.
(** not fails without committing, even when the parser it denies consumed input: the alternative is still tried. *)
Theorem C10_not_uncommitted : forall I A (p : parser I A) (q : parser I unit) inp off, off <= length inp ->
  succeeds p inp off -> fails_uncommitted (p_not p) inp off /\ p_or (p_not p) q inp off = q inp off.
Proof.
  intros I A p q inp off Ho (v & n & H). assert (F : fails_uncommitted (p_not p) inp off).
  { unfold fails_uncommitted, p_not. rewrite H, Nat.add_0_r, ps_input_ok by exact Ho. eexists. reflexivity. }
  split; [exact F|]. now apply C03_or_second.
Qed.
Example C10_not_example : succeeds (p_seqN (bs "ab")) (bs "abc") 0 /\
  parse (p_or (p_not (p_seqN (bs "ab"))) (p_discard (p_take 3))) (bs "abc") = Success tt 3.
Proof. split; [do 2 eexists|]; vm_compute; reflexivity. Qed.
Example C10_example :
  parse (p_and (p_peek (p_seqN (bs "ab"))) (p_take 3)) (bs "abc") = Success (bs "ab", bs "abc") 3 /\
  parse (p_exists (p_seqN (bs "ab"))) (bs "ax") = Success false 0 /\
  parse (p_not (p_seqN (bs "ab"))) (bs "ax") = Success tt 0.
Proof. repeat split. Qed.

Print Assumptions C10_lookahead_consumes_nothing.
Print Assumptions C10_peek.
Print Assumptions C10_exists.
Print Assumptions C10_not.
Print Assumptions C10_not_uncommitted.

(** ** C11 *)
Theorem C11_end : forall I (inp : list I) off, off <= length inp ->
  (forall v n, p_end inp off = Success v n <-> off = length inp /\ v = tt /\ n = 0) /\
  (off < length inp -> fails_uncommitted p_end inp off).
Proof.
  intros I inp off Ho. unfold p_end, fails_uncommitted. rewrite ps_input_ok by exact Ho. split.
  - intros v n. destruct (skipn off inp) eqn:E; split; intros H.
    + inv H. apply skipn_nil_iff in E. split; [lia|auto].
    + destruct H as (_ & -> & ->). reflexivity.
    + discriminate.
    + destruct H as (-> & _ & _). rewrite skipn_all in E. discriminate.
  - intros Hl. destruct (skipn off inp) eqn:E; [apply skipn_nil_iff in E; lia|].
    unfold failed_with_uncommitted. eauto.
Qed.

Theorem C11_whole_input : forall I A (p : parser I A) inp v n, bounded p ->
  parse (p_skip_right p p_end) inp = Success v n <-> parse p inp = Success v n /\ n = length inp.
Proof.
  intros I A p inp v n Hb. unfold parse, p_skip_right. destruct (p inp 0) as [w m|e c| |] eqn:E;
    try (split; [discriminate|intros [H _]; discriminate]).
  assert (Hm : 0 + m <= length inp) by (eapply Hb; [|exact E]; lia).
  destruct (C11_end inp Hm) as [H1 H2]. destruct (p_end inp (0 + m)) as [u k|e c| |] eqn:Ee.
  - destruct (proj1 (H1 u k) eq_refl) as (Hl & -> & ->). rewrite Nat.add_0_r. split; intros H.
    + split; [exact H|]. inv H. cbn in Hl. exact Hl.
    + now destruct H.
  - cbn. split; [discriminate|]. intros [H Hn]. inv H.
    exfalso. assert (X := proj2 (H1 tt 0) (conj eq_refl (conj eq_refl eq_refl))). discriminate X.
  - split; [discriminate|]. intros [H Hn]. inv H.
    exfalso. assert (X := proj2 (H1 tt 0) (conj eq_refl (conj eq_refl eq_refl))). discriminate X.
  - split; [discriminate|]. intros [H Hn]. inv H.
    exfalso. assert (X := proj2 (H1 tt 0) (conj eq_refl (conj eq_refl eq_refl))). discriminate X.
Qed.
Example C11_example :
  bounded (p_many1 p_elm_digit) /\
  parse (p_skip_right (p_many1 p_elm_digit) p_end) (bs "123") = Success (bs "123") 3 /\
  erase (parse (p_skip_right (p_many1 p_elm_digit) p_end) (bs "12x")) = ShFailure Uncommitted.
Proof.
  split; [|split; reflexivity]. eapply built_bounded with (leaf := no_leaf) (ofs := false) (pan := false).
  - intros A p [].
  - build.
Qed.

Print Assumptions C11_end.
Print Assumptions C11_whole_input.
