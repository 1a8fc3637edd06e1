(** C142: the uri parsers read a text with a number of calls linear in its length and with a bounded depth of calls. *)
From Verif Require Import Base Core Comb Text Uri Measure MeasureUri MeasureUriCount.
Set Implicit Arguments.
Local Open Scope string_scope.
Local Open Scope nat_scope.
Local Open Scope list_scope.

(** C142.  The measured parsers return what those of Uri.v return, whatever Ipv6Addr::from_str does. *)
Theorem C142_measured : forall v6_parse text off,
  fst (mu_uri_p v6_parse text off) = uri_p v6_parse text off /\ fst (mu_absolute_uri v6_parse text off) = absolute_uri v6_parse text off.
Proof. intros v6 text off. split; [apply er_uri_p|apply er_absolute_uri]. Qed.
(** Every closure called is counted; there are no texts, accepted or not, on which the parser of URIs takes more than linear time. *)
Theorem C142_linear : forall v6_parse text,
  cnt (snd (mu_uri_p v6_parse text 0)) <= 391 * length text + 3861 /\ cnt (snd (mu_absolute_uri v6_parse text 0)) <= 364 * length text + 3821.
Proof.
  intros v6 text. pose proof (re_uri v6 text (off := 0) (Nat.le_0_l _)) as H1. pose proof (re_absolute v6 text (off := 0) (Nat.le_0_l _)) as H2. now rewrite Nat.sub_0_r in H1, H2.
Qed.
(** The closures active at one time, so the stack, do not depend on the text. *)
Theorem C142_depth : forall v6_parse text, hgt (snd (mu_uri_p v6_parse text 0)) <= 66 /\ hgt (snd (mu_absolute_uri v6_parse text 0)) <= 65.
Proof. intros v6 text. split; [apply fl_uri|apply fl_absolute]. Qed.
(** The bound on the depth is the exact one: an address the last two alternatives try takes the parser that deep. *)
Theorem C142_depth_exact : exists v6_parse text, hgt (snd (mu_uri_p v6_parse text 0)) = 66.
Proof. exists (fun _ => inr tt), (bs "http://[::ffff:1:2:1.2.3.4]/"). vm_compute. reflexivity. Qed.
(** A URI with all of its parts, a mixed address, and a text the parser rejects. *)
Example C142_case : let run := mu_uri_p (fun _ => inr tt) in
  (let '(o, m) := run (bs "http://user:pw@host.org:80/a/b%20?k=v&w#end") 0 in m = Meas 43 644 /\ exists u, o = Success u 43)
  /\ snd (run (bs "http://[::ffff:1:2:1.2.3.4]/") 0) = Meas 66 975
  /\ (let '(o, m) := run (bs "[::1]") 0 in m = Meas 14 17 /\ exists e c, o = Failure e c).
Proof. cbv zeta. vm_compute. repeat (split || eexists). Qed.
Print Assumptions C142_measured.
Print Assumptions C142_linear.
Print Assumptions C142_depth.
Print Assumptions C142_depth_exact.
