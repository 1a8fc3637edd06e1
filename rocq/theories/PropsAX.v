(** C143: the cron parser reads a text with a number of calls linear in its length and with a bounded depth of calls. *)
From Verif Require Import Base Core Comb Text Cron Measure MeasureUri MeasureUriCount MeasureCron.
Set Implicit Arguments.
Local Open Scope string_scope.
Local Open Scope nat_scope.
Local Open Scope list_scope.

(** C143.  The measured parser returns what CronParser::parse returns. *)
Theorem C143_measured : forall text, fst (mc_cron text 0) = cron_parse text.
Proof. intros text. apply er_cron. Qed.
(** Every field reads a list twice at most at each of its elements, so no text takes more than linear time, accepted or not. *)
Theorem C143_linear : forall text, cnt (snd (mc_cron text 0)) <= 642 * length text + 899.
Proof. intros text. pose proof (re_cron text (off := 0) (Nat.le_0_l _)) as H. now rewrite Nat.sub_0_r in H. Qed.
(** The closures active at one time do not depend on the text, and the bound is the exact one. *)
Theorem C143_depth : (forall text, hgt (snd (mc_cron text 0)) <= 32) /\ exists text, hgt (snd (mc_cron text 0)) = 32.
Proof. split; [intros text; apply fl_cron|]. exists (bs "*/5 1-2/3,4 1 1 SUN"). vm_compute. reflexivity. Qed.
(** An expression with steps, a range and a list, and a text the parser rejects after three fields. *)
Example C143_case :
  (let '(o, m) := mc_cron (bs "*/5 1-2/3,4 1 1 SUN") 0 in m = Meas 32 407 /\ exists e, o = Success e 19)
  /\ (let '(o, m) := mc_cron (bs "0 1 31-") 0 in m = Meas 29 192 /\ exists e c, o = Failure e c).
Proof. vm_compute. repeat (split || eexists). Qed.
Print Assumptions C143_measured.
Print Assumptions C143_linear.
Print Assumptions C143_depth.
