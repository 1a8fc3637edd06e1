(** C139: how long the toys parsers take. *)
From Verif Require Import PropsI PropsX.
From Verif Require Import ToysSlow.
From Verif Require Import Base Core Comb Runs Text JsonFacts Toys ToysParse ToysSyntax CacheSim CacheGrammars.
From Coq Require Import ZArith Lia.
Set Implicit Arguments.
Local Open Scope string_scope.
Local Open Scope nat_scope.
Local Open Scope list_scope.

(** The wanted property, full statement: there are [c] and [e] with
    forall a text, s_calls (s_program nd (length text)) a text <= c * length text ^ e
    (the time program() takes is bounded by a polynomial in the length of the text).  It is false: on [slow d], which has 6 + 17 d characters, the
    parsers made by program() are called at least 2 ^ d times, whatever the addresses of the caches' keys are (CacheSim.v). *)
Theorem C139_doubling : forall nd a d, ascii_class nd ->
  length (slow d) = 6 + 17 * d /\ 2 ^ d <= s_calls (s_program nd (length (slow d))) a (slow d).
Proof. intros nd a d H. split; [apply slow_length|now apply program_calls]. Qed.
Theorem C139_lines_doubling : forall nd a d, ascii_class nd ->
  length (ladder d) = 17 * d /\ 2 ^ d <= s_calls (s_lines nd (length (ladder d))) a (ladder d).
Proof. intros nd a d H. split; [apply ladder_length|now apply lines_calls]. Qed.

(** 2 ^ d outgrows every polynomial. *)
Lemma pow_big : forall j, j < 2 ^ j.
Proof. induction j as [|j IH]; cbn [Nat.pow]; lia. Qed.
Lemma outgrows : forall c e, exists d, c * (6 + 17 * d) ^ e < 2 ^ d.
Proof.
  intros c e. set (j := c + 5 * e). set (m := j + j). exists (2 ^ m).
  assert (A : 6 + 17 * 2 ^ m <= 2 ^ (m + 5)) by (rewrite Nat.pow_add_r; pose proof (pow_big m); change (2 ^ 5) with 32; lia).
  assert (B : (6 + 17 * 2 ^ m) ^ e <= 2 ^ ((m + 5) * e)) by (rewrite Nat.pow_mul_r; now apply Nat.pow_le_mono_l).
  assert (C : c * (6 + 17 * 2 ^ m) ^ e < 2 ^ (c + (m + 5) * e)).
  { rewrite Nat.pow_add_r. apply Nat.le_lt_trans with (c * 2 ^ ((m + 5) * e)); [now apply Nat.mul_le_mono_l|]. apply Nat.mul_lt_mono_pos_r; [|apply pow_big].
    pose proof (pow_big ((m + 5) * e)). lia. }
  eapply Nat.lt_le_trans; [exact C|]. apply Nat.pow_le_mono_r; [lia|]. unfold m at 2. rewrite Nat.pow_add_r. pose proof (pow_big j) as P.
  apply Nat.le_trans with (S j * S j); [|apply Nat.mul_le_mono; lia]. unfold m, j. nia.
Qed.
Theorem C139_polynomial_refuted : forall nd c e, ascii_class nd ->
  exists text, forall a, c * length text ^ e < s_calls (s_program nd (length text)) a text.
Proof.
  intros nd c e H. destruct (outgrows c e) as [d D]. exists (slow d). intros a. rewrite <- slow_length in D. eapply Nat.lt_le_trans; [exact D|]. now apply program_calls.
Qed.
Theorem C139_lines_polynomial_refuted : forall nd c e, ascii_class nd ->
  exists text, forall a, c * length text ^ e < s_calls (s_lines nd (length text)) a text.
Proof.
  intros nd c e H. destruct (outgrows c e) as [d D]. exists (ladder d). intros a. eapply Nat.le_lt_trans; [|eapply Nat.lt_le_trans; [exact D|now apply lines_calls]].
  apply Nat.mul_le_mono_l, Nat.pow_le_mono_l. rewrite ladder_length. lia.
Qed.

(** The texts and their calls: 126, 372, 864, ... (twice as many and 120 more). *)
Example C139_texts : slow 1 = bs "fn f(){if(a)if(a)b;else" /\ slow 2 = bs "fn f(){if(a)if(a)b;else{if(a)if(a)b;else".
Proof. split; reflexivity. Qed.
Example C139_calls : map (fun d => s_calls (s_program (fun x => (48 <=? x)%N && (x <=? 57)%N)%bool (length (slow d))) (fun n => n) (slow d)) [1; 2; 3] = [126; 372; 864].
Proof. vm_compute. reflexivity. Qed.
Example C139_class : ascii_class (fun x => (48 <=? x)%N && (x <=? 57)%N)%bool.
Proof. intros x _. unfold digit. destruct (N.leb_spec 48 x), (N.leb_spec x 57); cbn; lia. Qed.
Print Assumptions C139_doubling.
Print Assumptions C139_lines_doubling.
Print Assumptions C139_polynomial_refuted.
Print Assumptions C139_lines_polynomial_refuted.
