(** C148: how many parsers the toys parsers call. *)
From Verif Require Import CacheSim CacheGrammars ToysSlow PropsX CacheTime CacheTimeToys.
From Verif Require Import Base Core Comb Text Json Calc CalcFacts Toys ToysParse Measure MeasureJson MeasureToys MeasureToysCount.
From Coq Require Import Lia.
Set Implicit Arguments.
Local Open Scope string_scope.
Local Open Scope nat_scope.
Local Open Scope list_scope.

(** The opening brackets of a text. *)
Definition brackets (text : list N) : nat := length (filter (fun c => existsb (N.eqb c) (bs "([{")) text).
Lemma brackets_marks : forall text, brackets text = MeasureToysCount.marks text.
Proof.
  unfold brackets, MeasureToysCount.marks. intros text. f_equal. apply filter_ext. intros c. unfold MeasureToysCount.is_mark. cbn [existsb bs].
  change (existsb (N.eqb c) (bs "([{")) with ((c =? 40)%N || ((c =? 91)%N || ((c =? 123)%N || false))). now rewrite orb_false_r, orb_assoc.
Qed.
(** C148.  The number of closures called, all of them counted and every cache taken as one that does not know the place, is at most quadratic in the
    length of the text, times a power of 16 in its opening brackets. *)
Theorem C148_lines : forall nd text, (forall x, (x < 128)%N -> (nd x = true <-> digit x)) ->
  fst (mt_lines nd text 0) = lines nd text 0 /\ cnt (snd (mt_lines nd text 0)) <= 512 * 512 * (length text + 1) ^ 2 * 16 ^ brackets text.
Proof. intros nd text Hnd. split; [apply et_lines|]. rewrite brackets_marks. now apply lines_bound. Qed.
Theorem C148_program : forall nd text, (forall x, (x < 128)%N -> (nd x = true <-> digit x)) ->
  fst (mt_program nd text 0) = program nd text 0 /\ cnt (snd (mt_program nd text 0)) <= 512 * 512 * (length text + 1) ^ 2 * 16 ^ brackets text.
Proof. intros nd text Hnd. split; [apply et_program|]. rewrite brackets_marks. now apply program_bound. Qed.
(** Texts of at most [k] brackets, then, take time at most quadratic in their length, accepted or not. *)
Theorem C148_few_brackets : forall nd k, (forall x, (x < 128)%N -> (nd x = true <-> digit x)) ->
  exists c, forall text, brackets text <= k -> cnt (snd (mt_lines nd text 0)) <= c * (length text + 1) ^ 2 /\ cnt (snd (mt_program nd text 0)) <= c * (length text + 1) ^ 2.
Proof.
  intros nd k Hnd. exists (512 * 512 * 16 ^ k). intros text H. pose proof (Nat.pow_le_mono_r 16 _ _ ltac:(discriminate) H) as P.
  pose proof (proj2 (C148_lines nd text Hnd)) as L. pose proof (proj2 (C148_program nd text Hnd)) as Q. revert P L Q. generalize (16 ^ brackets text) (16 ^ k) ((length text + 1) ^ 2). intros x y z P L Q.
  assert (E : 512 * 512 * z * x <= 512 * 512 * y * z) by (rewrite <- Nat.mul_assoc, (Nat.mul_comm z x), Nat.mul_assoc; apply Nat.mul_le_mono_r; now apply Nat.mul_le_mono_l). split; eapply Nat.le_trans; eassumption.
Qed.
(** The calls counted with the caches as they are (CacheSim.v), whatever the addresses of their keys: calls of parsers made by cache(), those that find
    their answer in the cache and those that do not.  They are no more than the calls counted above, and so obey the same bounds; C139 gives texts
    on which they are at least 2 ^ d. *)
Theorem C148_fewer_calls : forall nd a text,
  s_calls (s_lines nd (length text)) a text <= cnt (snd (mt_lines nd text 0)) /\ s_calls (s_program nd (length text)) a text <= cnt (snd (mt_program nd text 0)).
Proof. intros nd a text. split; unfold s_calls; [exact (timed_run (ti_lines nd a text))|exact (timed_run (ti_program nd a text))]. Qed.
Theorem C148_cached : forall nd a text, (forall x, (x < 128)%N -> (nd x = true <-> digit x)) ->
  s_calls (s_lines nd (length text)) a text <= 512 * 512 * (length text + 1) ^ 2 * 16 ^ brackets text /\
  s_calls (s_program nd (length text)) a text <= 512 * 512 * (length text + 1) ^ 2 * 16 ^ brackets text.
Proof.
  intros nd a text Hnd. destruct (C148_fewer_calls nd a text) as [H1 H2]. split; eapply Nat.le_trans; [exact H1|exact (proj2 (C148_lines nd text Hnd))|exact H2|exact (proj2 (C148_program nd text Hnd))].
Qed.
(** Accepted and rejected texts.  Lines, parentheses and blocks add to the calls; an if inside an if before an else that fails doubles
    them (C139). *)
Example C148_case :
  let dg c := ((48 <=? c) && (c <=? 57))%N in
  map (fun s => (cnt (snd (mt_lines dg (bs s) 0)), brackets (bs s))) ["a;"; "a;a;"; "a;a;a;"; "(a);"; "((a));"; "(((a)));"; "{"; "{{"; "{{{"; "if(a)b;"; "{if(a)if(a)b;else"; "{if(a)if(a)b;else{if(a)if(a)b;else"]
    = [(623, 0); (990, 0); (1357, 0); (744, 1); (876, 2); (1008, 3); (513, 1); (775, 2); (1037, 3); (971, 1); (2209, 3); (6125, 6)] /\ exists e, program dg (bs "global x = 1; fn f(a,b){ if(a<b) { g(a); } else b; }") 0 = Success e 52.
Proof. vm_compute. repeat split. eexists. reflexivity. Qed.
Example C148_cached_case :
  let dg c := ((48 <=? c) && (c <=? 57))%N in
  map (fun s => (s_calls (s_lines dg (length (bs s))) (fun n => n) (bs s), s_calls (s_lines dg (length (bs s))) (fun _ => 7) (bs s), cnt (snd (mt_lines dg (bs s) 0))))
    ["a;"; "a;a;"; "((a));"; "{if(a)if(a)b;else"] = [(43, 43, 623); (64, 64, 990); (57, 57, 876); (145, 145, 2209)].
Proof. vm_compute. reflexivity. Qed.
Print Assumptions C148_lines.
Print Assumptions C148_program.
Print Assumptions C148_few_brackets.
Print Assumptions C148_fewer_calls.
Print Assumptions C148_cached.
