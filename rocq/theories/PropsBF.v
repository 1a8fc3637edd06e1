(** C151: one parser object with caches used for one text several times. *)
From Verif Require Import ToysParseSound PropsI PropsBE CacheSim CacheGrammars CacheReuse CacheAgain CacheAgainGrammars.
From Verif Require Import Base Core Comb Text Json Bench Toys ToysParse Cron.
From Coq Require Import Lia.
Set Implicit Arguments.
Local Open Scope string_scope.
Local Open Scope nat_scope.
Local Open Scope list_scope.

(** One text may be read as often as one likes, wherever the states are: the answers that are found are those of the text. *)
Lemma again_uses : forall a inp A (g : sobj A) p, Again a inp false g p -> forall n, s_uses g a (repeat inp n) (0, st0 g) = repeat (parse p inp) n.
Proof.
  intros a inp A g p H n. destruct (H 0 (Nat.le_0_l 1) ltac:(discriminate)) as (W & H0 & H1). assert (G : forall n t s, W s -> s_uses g a (repeat inp n) (t, s) = repeat (parse p inp) n); [|now apply G].
  clear n. induction n as [|n IH]; intros t s Hs; [reflexivity|]. cbn [repeat s_uses]. destruct (H1 0 (or_introl eq_refl) t s Hs) as (t1 & s1 & E & K). rewrite E. f_equal. now apply IH.
Qed.
Theorem C151_cron : forall a n text, let g := s_skip_right s_instruction (s_prim p_end) in s_uses g a (repeat text n) (0, st0 g) = repeat (cron_parse text) n.
Proof. intros a n text g. apply again_uses, again_skip_right; [apply r_instruction|apply again_prim]. Qed.
Theorem C151_program : forall nd a k n text, ascii_class nd -> length text <= k -> let g := s_program nd k in
  s_uses g a (repeat text n) (0, st0 g) = repeat (parse (program nd) text) n.
Proof. intros nd a k n text Hn Hk g. apply again_uses, w_program; [exact Hk|]. intros off. apply line_enough; [exact Hn|lia]. Qed.
Theorem C151_lines : forall nd a k n text, ascii_class nd -> length text <= k -> let g := s_lines nd k in
  s_uses g a (repeat text n) (0, st0 g) = repeat (parse (lines nd) text) n.
Proof. intros nd a k n text Hn Hk g. apply again_uses, w_lines; [exact Hk|]. intros off. apply line_enough; [exact Hn|lia]. Qed.
Theorem C151_bench : forall F (f64_parse : list N -> F + unit) lossy bytes a k n text, length text <= k -> let g := s_bench f64_parse lossy bytes k in
  s_uses g a (repeat text n) (0, st0 g) = repeat (parse (bench_p f64_parse lossy bytes) text) n.
Proof. intros F f lossy bytes a k n text Hk g. apply again_uses, w_bench, bench_more, Hk. Qed.
(** The second reading takes fewer steps, its answers are found: the states of the two readings of the example share one address. *)
Example C151_example : let g := s_program is_ascii_digit 40 in let a := fun _ => 7 in let text := bs "global x=1; fn main() { println(x); }" in
  s_uses g a [text; text] (0, st0 g) = [parse (program is_ascii_digit) text; parse (program is_ascii_digit) text] /\ (exists v, parse (program is_ascii_digit) text = Success v (length text)) /\
  match s_starts g a [text; text; text] (0, st0 g) with t1 :: t2 :: t3 :: _ => t2 - t1 > t3 - t2 | _ => False end.
Proof. vm_compute. split; [reflexivity|]. split; [eexists; reflexivity|repeat constructor]. Qed.
Print Assumptions C151_cron.
Print Assumptions C151_program.
Print Assumptions C151_lines.
Print Assumptions C151_bench.
